(** PropsPolyRep5.v – C87: polymat_evaluate_braid_integers_of_same_length. *)
From Verif Require Import Base ModelPoly SpecPoly PolyTheory PropsPoly ModelMatrix SpecMatrix MatrixTheory NumTheory ModelPolymat SpecPolymat PolymatTheory PropsPolymat PropsPolymat2 PropsPolymat3.
From Coq Require Import Ring Setoid Morphisms.
From Verif Require Import ModelPerm Germ GermNF GermAct GermBraid PermTheory WeakOrder PermWords SpecBraid BraidTheory FullTwistBraid FullTwist ModelBraid ModelTL ModelTLMor ModelRep SpecRep RepTheory RepCanon PropsRep PropsTwist ModelPolyRep TableTheory NFApi PermGerm PermTable PropsGNF PropsGNF2 PolyRepTheory PolyRepSpan PropsPolyRep2 DescTheory.
From Verif Require NCGerm NCLift NParTable PropsNPar PropsDGNF DualTwist PropsPolyRep3.
Local Open Scope nat_scope.
#[local] Existing Instance neqp_equiv.
#[local] Existing Instance pmeq_equiv.

(** ** Specification *)
(** the Artin word of a sequence of table indices: the words of its factors, one
    after the other *)
Definition sequence_word {A} (t : nftable A) (s : list Z) : res (list (Z * Z)) := ws <- mapM (pyget (t_word t)) s ;; Ok (concat ws).

Lemma bc_one N : broadcasts [1] [N] [N].
Proof.
  split; [|split; [reflexivity|]]; intros k.
  - unfold axis. cbn [rev List.app]. destruct k as [|k]; cbn; [auto|destruct k; auto].
  - unfold axis. cbn [rev List.app]. destruct k as [|k]; cbn; [destruct (N =? 1) eqn:Q; auto; apply Nat.eqb_eq in Q; auto|destruct k; auto].
Qed.
Lemma op_one N k : k < N -> operand_index [1] [k] = [0].
Proof. intros Hk. unfold operand_index. cbn. reflexivity. Qed.
Lemma foldM_map {A B C} (f : C -> B -> res C) (g : A -> B) l c : foldM f (map g l) c = foldM (fun c x => f c (g x)) l c.
Proof. revert c. induction l as [|x l IH]; intros c; [reflexivity|]. cbn [map foldM]. destruct (f c (g x)); cbn [bind]; auto. Qed.
Lemma foldM_ext {A C} (f g : C -> A -> res C) l c : (forall c x, In x l -> f c x = g c x) -> foldM f l c = foldM g l c.
Proof. revert c. induction l as [|x l IH]; intros c K; [reflexivity|]. cbn [foldM]. rewrite K by now left. destruct (g c x); cbn [bind]; [|reflexivity]. apply IH. intros; apply K; now right. Qed.
Lemma mapM_ext_in {A B} (f g : A -> res B) l : (forall x, In x l -> f x = g x) -> mapM f l = mapM g l.
Proof. induction l as [|x l IH]; intros K; [reflexivity|]. cbn [mapM]. rewrite K by now left. rewrite IH by (intros; apply K; now right). reflexivity. Qed.

Section Ev.
Variables (n r : nat) (p : Z) (R : rep) (d : nat) (gens invs : list (mat num)) (E : mat num).
Hypothesis (EJ : jones_rep n r p = Ok R) (ED : rep_dimension R = Ok (Z.of_nat d)) (EG : rep_artin_gens_invs R = Ok (gens, invs)) (EI : rep_id R = Ok E).
Hypothesis Hp1 : p <> 1%Z.
Local Notation MM := (M gens invs E).
Context {T : Type}.
Variables (tb : nat -> res (nftable T)) (t : nftable T).
Hypothesis Etb : tb n = Ok t.
Local Notation factor_word := (factor_word n p R t).
Local Notation fw := (fw t).
Local Notation fl := (fl t).

(** the images of a list of factors *)
Lemma factors_batch N (col : list Z) (ws : nat -> list (Z * Z)) : 1 <= N -> length col = N -> (forall k, k < N -> factor_word (nth k col 0%Z) (ws k)) -> in_dtype I64 p ->
  exists B, (fs <- mapM (polymat_braid_factor tb R) col ;; pack fs) = Ok B /\ batch_ok p I64 d [N] (fun idx => MM (expand (ws (hd 0 idx)))) B /\ batch_proj p d [N] B /\
    forall k, k < N -> forall W, (forall X, rep_evaluate_artin_word R (ws k) = Ok X -> span_below X W) -> forall i j e, i < d -> j < d -> W <= e -> acoef B [k] i j e = 0%Z.
Proof using EJ ED EG EI Hp1 Etb.
  intros HN LC HF Ip. destruct (Mfacts n r p R d gens invs E EJ ED EG EI) as (_ & EPP & Hp & Hd & _ & SM & BM & PM).
  destruct (choice_list (fun k F => polymat_braid_factor tb R (nth k col 0%Z) = Ok F /\ batch_ok p I64 d [] (fun _ => MM (expand (ws k))) F /\ batch_proj p d [] F /\
    forall W, (forall X, rep_evaluate_artin_word R (ws k) = Ok X -> span_below X W) -> forall i j e, i < d -> j < d -> W <= e -> acoef F [] i j e = 0%Z) A_default N) as [g Hg].
  { intros k Hk. apply (factor_ok n r p R d gens invs E EJ ED EG EI Hp1 tb t Etb); auto. }
  rewrite (mapM_nth _ g) by (intros k x Hk; assert (Lk : k < N) by (rewrite <- LC; apply nth_error_Some; congruence); rewrite <- (nth_error_nth _ _ 0%Z Hk); now apply Hg). cbn [bind]. rewrite LC.
  set (Fs := map g (seq 0 N)). assert (LF : length Fs = N) by (unfold Fs; now rewrite map_length, seq_length).
  assert (NF : forall k A, nth_error Fs k = Some A -> k < N /\ A = g k). { intros k A Hk. assert (Lk : k < N) by (rewrite <- LF; apply nth_error_Some; congruence). split; [exact Lk|]. unfold Fs in Hk. rewrite nth_error_map, (nth_error_nth' (seq 0 N) 0), seq_nth in Hk by (rewrite ?seq_length; lia). cbn in Hk. congruence. }
  destruct (pack_batch p I64 d Fs (fun k => MM (expand (ws k)))) as (B & EB & BB & KB).
  { intros Q. rewrite Q in LF. cbn in LF. lia. }
  { intros k A Hk. destruct (NF k A Hk) as [Lk ->]. now apply Hg. }
  assert (KB' : forall k i j e, k < N -> i < d -> j < d -> acoef B [k] i j e = acoef (g k) [] i j e).
  { intros k i j e Hk Hi Hj. apply (KB k (g k)); auto. unfold Fs. rewrite nth_error_map, (nth_error_nth' (seq 0 N) 0), seq_nth by (rewrite ?seq_length; lia). reflexivity. }
  rewrite LF in BB. exists B. split; [exact EB|]. split; [exact BB|]. split.
  - intros idx V. destruct (valid1 N idx V) as [k [-> Hk]]. destruct (Hg k Hk) as (_ & _ & PF & _). destruct (PF [] ltac:(constructor)) as [[(i & j & Hi & Hj & Q) MN] RF]. split.
    + split; [exists i, j; rewrite KB' by auto; auto|intros; lia].
    + intros i' j' e Hi' Hj' P0. rewrite KB' by auto. now apply RF.
  - intros k Hk W HW i j e Hi Hj He. rewrite KB' by auto. destruct (Hg k Hk) as (_ & _ & _ & SF). now apply (SF W).
Qed.

Lemma ident_ok w0 : factor_word (t_id t) w0 -> in_dtype I64 p -> exists P, (f <- polymat_braid_factor tb R (t_id t) ;; pack [f]) = Ok P /\ batch_ok p I64 d [1] (fun _ => MM (expand w0)) P /\ batch_proj p d [1] P.
Proof using EJ ED EG EI Hp1 Etb.
  intros HF Ip. destruct (factors_batch 1 [t_id t] (fun _ => w0)) as (B & EB & BB & PB & _); auto.
  - intros k Hk. assert (k = 0) by lia. subst k. exact HF.
  - exists B. split; [|split; [exact BB|exact PB]]. cbn [mapM] in EB. destruct (polymat_braid_factor tb R (t_id t)); [exact EB|discriminate].
Qed.

Lemma integers_gen (seqs : list (list Z)) (s0 : list Z) len w0 W : hd_error seqs = Some s0 -> length s0 = S len -> (forall s, In s seqs -> length s = S len) ->
  (forall s x, In s seqs -> In x s -> (0 <= x < Z.of_nat (t_order t))%Z) ->
  factor_word (t_id t) w0 -> (forall s f, In s seqs -> In f s -> factor_word f (fw f)) -> in_dtype I64 p -> 
  (p <> 0%Z -> (Z.of_nat d * (Z.of_nat W * ((p - 1) * (p - 1))) < 2 ^ 63)%Z /\
     forall s f X, In s seqs -> In f s -> rep_evaluate_artin_word R (fw f) = Ok X -> span_below X W) ->
  (p = 0%Z -> forall k i, k < length seqs -> i <= S len -> fits64 (MM (expand w0 ++ fl (firstn i (nth k seqs s0))))) ->
  exists Q, polymat_evaluate_integers tb R seqs = Ok Q /\
    batch_ok p I64 d [length seqs] (fun idx => MM (expand w0 ++ fl (nth (hd 0 idx) seqs s0))) Q /\ batch_proj p d [length seqs] Q.
Proof using EJ ED EG EI Hp1 Etb.
  intros H0 L0 HL HR HI HF Ip BN BZ. destruct (Mfacts n r p R d gens invs E EJ ED EG EI) as (EN & EPP & Hp & Hd & _ & SM & BM & PM).
  assert (HN : 1 <= length seqs) by (destruct seqs; [discriminate|cbn; lia]).
  assert (EG0 : get seqs 0 = Ok s0) by (destruct seqs; [discriminate|]; injection H0 as ->; reflexivity).
  unfold polymat_evaluate_integers. rewrite EG0. cbn [bind]. rewrite L0.
  assert (F1 : forallb (fun s => length s =? S len) seqs = true) by (apply forallb_forall; intros s Hs; apply Nat.eqb_eq; now apply HL). rewrite F1. cbn [assert_ bind]. rewrite EN, Etb. cbn [bind].
  assert (F2 : forallb (forallb (fun x => (0 <=? x) && (x <? Z.of_nat (t_order t)))%Z) seqs = true).
  { apply forallb_forall. intros s Hs. apply forallb_forall. intros x Hx. specialize (HR s x Hs Hx). apply andb_true_iff. split; [apply Z.leb_le|apply Z.ltb_lt]; lia. }
  rewrite F2. cbn [assert_ bind]. destruct (ident_ok w0 HI Ip) as (P0 & EP0 & BP0 & PP0).
  destruct (polymat_braid_factor tb R (t_id t)) as [f|]; [|discriminate]. cbn [bind] in EP0 |- *. rewrite EP0. cbn [bind].
  change (seq 0 (S len)) with (0 :: seq 1 len). cbn [foldM].
  rewrite (mapM_ok (fun s : list Z => get s 0) (fun s => nth 0 s 0%Z)) by (intros s Hs; apply get_nth; rewrite (HL s Hs); lia). cbn [bind].
  pose (ws := fun k => fw (nth 0 (nth k seqs s0) 0%Z)).
  assert (IN0 : forall k, k < length seqs -> In (nth k seqs s0) seqs /\ In (nth 0 (nth k seqs s0) 0%Z) (nth k seqs s0)) by (intros k Hk; pose proof (nth_In seqs s0 Hk) as I0; split; [exact I0|apply nth_In; rewrite (HL _ I0); lia]).
  destruct (factors_batch (length seqs) (map (fun s => nth 0 s 0%Z) seqs) ws) as (B & EB & BB & PB & SB); auto.
  { now rewrite map_length. }
  { intros k Hk. rewrite (nth_indep _ 0%Z (nth 0 s0 0%Z)) by now rewrite map_length. rewrite (map_nth (fun s => nth 0 s 0%Z)). unfold ws. destruct (IN0 k Hk). now apply (HF (nth k seqs s0)). }
  unfold polymat_step at 1. destruct (mapM (polymat_braid_factor tb R) (map (fun s => nth 0 s 0%Z) seqs)) as [fs|]; [|discriminate]. cbn [bind] in EB |- *. rewrite EB. cbn [bind]. rewrite EPP.
  assert (RW : in_range n (expand w0)) by (apply word_ok_range, HI).
  assert (RS : forall k, k < length seqs -> in_range n (expand (ws k))). { intros k Hk. destruct (IN0 k Hk) as [A1 A2]. apply word_ok_range. apply (HF _ _ A1 A2). }
  destruct (bc_step n r p R d gens invs E EJ ED EG EI Hp1 I64 [1] [length seqs] [length seqs] P0 B (fun _ => expand w0) (fun idx => expand (ws (hd 0 idx))) W) as (C & EC & BC & PC); auto.
  - unfold nitems. cbn [fold_right]. lia.
  - apply bc_one.
  - intros idx V. destruct (valid1 _ _ V) as [k [-> Hk]]. now apply RS.
  - intros Pn. destruct (BN Pn) as [B1 B2]. split; [exact Ip|]. split; [exact B1|]. intros idx i j e V Hi Hj He. destruct (valid1 _ _ V) as [k [-> Hk]]. apply (SB k Hk W); auto. intros X. destruct (IN0 k Hk) as [A1 A2]. now apply (B2 _ _ X A1 A2).
  - intros Pz idx i j e V Hi Hj. rewrite (operand_self _ _ V). destruct (valid1 _ _ V) as [k [-> Hk]]. cbn [hd]. specialize (BZ Pz k 1 Hk ltac:(lia) i j e).
    destruct (IN0 k Hk) as [A1 _]. pose proof (HL _ A1) as LL. unfold ws. destruct (nth k seqs s0) as [|x s]; [discriminate|]. cbn [firstn PolyRepTheory.fl flat_map nth] in *. rewrite app_nil_r in BZ. exact BZ.
  - rewrite EC. cbn [bind].
    assert (EF : foldM (fun result i => col <- mapM (fun s => get s i) seqs;; polymat_step tb R result col) (seq 1 len) C = foldM (fun result i => col <- mapM (fun s => get (tl s) i) seqs;; polymat_step tb R result col) (seq 0 len) C).
    { rewrite <- seq_shift, foldM_map. apply foldM_ext. intros c i Hi. f_equal. apply mapM_ext_in. intros s Hs. specialize (HL s Hs). destruct s; [discriminate|reflexivity]. }
    rewrite EF. clear EF.
    destruct (run_ok n r p R d gens invs E EJ ED EG EI Hp1 tb t Etb seqs (@tl Z) s0 (fun k => expand w0 ++ expand (ws k)) len (p - 1)%Z W C) as (Q & EQ & BQ & PQ); auto.
    + intros s Hs. specialize (HL s Hs). destruct s; [discriminate|]. cbn in HL |- *. lia.
    + intros s x Hs Hx. apply (HF s x Hs). destruct s; [destruct Hx|now right].
    + intros k Hk. apply in_range_app. split; [exact RW|now apply RS].
    + destruct BC as (W1 & W2 & W3 & W4 & W5 & KK). split; [exact W1|]. do 4 (split; [assumption|]). intros idx V. specialize (KK idx V). cbv beta in KK. rewrite (operand_self _ _ V) in KK. exact KK.
    + intros Pn. destruct (BN Pn) as [B1 B2]. split; [exact B1|]. split; [lia|]. split.
      * intros k i j e Hk Hi Hj. destruct (PC [k]) as [_ RG]; [constructor; [exact Hk|constructor]|]. specialize (RG i j e Hi Hj Pn). lia.
      * intros s x X Hs Hx. apply (B2 s x X Hs). destruct s; [destruct Hx|now right].
    + intros Pz k i Hk Hi. specialize (BZ Pz k (S i) Hk ltac:(lia)). destruct (IN0 k Hk) as [A1 _]. pose proof (HL _ A1) as LL. unfold ws. destruct (nth k seqs s0) as [|x s]; [discriminate|]. cbn [firstn PolyRepTheory.fl flat_map nth tl] in *. rewrite app_assoc in BZ. exact BZ.
    + exists Q. split; [exact EQ|]. split; [|apply PQ; now right].
      destruct BQ as (W1 & W2 & W3 & W4 & W5 & KK). split; [exact W1|]. do 4 (split; [assumption|]). intros idx V. specialize (KK idx V). destruct (valid1 _ _ V) as [k [-> Hk]]. cbn [hd] in *. unfold ws in KK. destruct (IN0 k Hk) as [A1 _]. pose proof (HL _ A1) as LL. destruct (nth k seqs s0) as [|x s]; [discriminate|]. cbn [firstn PolyRepTheory.fl flat_map nth tl] in *. rewrite app_assoc. exact KK.
Qed.
End Ev.

Section Gen.
Context {A : Type}.
Variable tbl : nftable A.
Variable G : Germ.
Variable rn : T G -> T G -> T G * T G.
Variable eqd : forall x y : T G, {x = y} + {x <> y}.
Variable n : nat.
Variable wd : T G -> list (Z * Z).
Variable atom : nat -> T G.
Variable idx : T G -> Z.
Variable div : T G -> A.
Hypothesis TK : table_ok tbl G rn eqd n wd atom idx div.
Variable tb : nat -> res (nftable A).
Hypothesis Htb : tb n = Ok tbl.
Hypothesis Hone : wd (one G) = [].

Lemma seq_word_ok s ws : Forall2 (fun x w => pyget (t_word tbl) x = Ok w) s ws -> (forall x, In x s -> (0 <= x < Z.of_nat (t_order tbl))%Z) -> goodw n (concat ws) /\ expand (concat ws) = fl tbl s.
Proof using TK.
  intros F. induction F as [|x w s ws Hw F IH]; intros K; [split; [split; constructor|reflexivity]|].
  destruct IH as [[I1 I2] I3]; [intros; apply K; now right|]. destruct (tk_surj _ _ _ _ _ _ _ _ _ TK x ltac:(apply K; now left)) as [y <-]. rewrite (tk_word _ _ _ _ _ _ _ _ _ TK) in Hw. injection Hw as <-. pose proof (tk_wdok _ _ _ _ _ _ _ _ _ TK y) as [G1 G2].
  cbn [concat]. split; [split; apply Forall_app; split; auto|]. rewrite expand_app, I3. cbn [fl flat_map]. unfold fw. now rewrite (tk_word _ _ _ _ _ _ _ _ _ TK).
Qed.
Lemma seq_word_total s : (forall x, In x s -> (0 <= x < Z.of_nat (t_order tbl))%Z) -> exists w, sequence_word tbl s = Ok w /\ goodw n w /\ expand w = fl tbl s.
Proof using TK.
  intros K. unfold sequence_word. destruct (mapM (pyget (t_word tbl)) s) as [ws|e] eqn:E.
  - cbn [bind]. exists (concat ws). split; [reflexivity|]. apply seq_word_ok; [|exact K]. now apply mapM_Ok_Forall2.
  - exfalso. rewrite (mapM_ok _ (fw tbl)) in E; [discriminate|]. intros x Hx. destruct (tk_surj _ _ _ _ _ _ _ _ _ TK x (K x Hx)) as [y <-]. unfold fw. now rewrite (tk_word _ _ _ _ _ _ _ _ _ TK).
Qed.

Lemma gen_integers r p R d seqs W : jones_rep n r p = Ok R -> rep_dimension R = Ok (Z.of_nat d) -> p <> 1%Z -> seqs <> [] ->
  (forall s s', In s seqs -> In s' seqs -> length s = length s') -> (forall s, In s seqs -> s <> []) ->
  (forall s x, In s seqs -> In x s -> (0 <= x < Z.of_nat (t_order tbl))%Z) ->
  (forall x, 2 * length (lift G wd x) < W) ->
  (p <> 0%Z -> (Z.of_nat d * (Z.of_nat W * ((p - 1) * (p - 1))) < 2 ^ 63)%Z) ->
  (p = 0%Z -> forall s w X, In s seqs -> (exists i, sequence_word tbl (firstn i s) = Ok w) \/ (exists x, In x s /\ sequence_word tbl [x] = Ok w) -> rep_evaluate_artin_word R w = Ok X -> int64_matrix X) ->
  exists P, polymat_evaluate_integers tb R seqs = Ok P /\ wfa P /\ apre P = [length seqs] /\ aI P = d /\ aJ P = d /\ adt P = I64 /\
    forall k s, nth_error seqs k = Some s -> (exists w X, sequence_word tbl s = Ok w /\ rep_evaluate_artin_word R w = Ok X /\ is_image p d X P k) /\
      (exists i j, i < d /\ j < d /\ acoef P [k] i j 0 <> 0%Z) /\ (p <> 0%Z -> forall i j e, i < d -> j < d -> (0 <= acoef P [k] i j e < p)%Z).
Proof using TK Htb Hone.
  intros EJ ED Hp1 NE HL HNE HR HW BN BZ.
  destruct (jones_all n r p R EJ) as (d' & gens & invs & E & EN & EP & Hp & Hd & ED' & EG & EI & HE & _). rewrite ED in ED'. injection ED' as ED'. apply Nat2Z.inj in ED'. subst d'.
  destruct (Mfacts n r p R d gens invs E EJ ED EG EI) as (_ & _ & _ & _ & _ & SM & BM & PM).
  assert (FWx : forall x, fw tbl (idx x) = wd x) by (intros x; unfold fw; now rewrite (tk_word _ _ _ _ _ _ _ _ _ TK)).
  assert (GW : forall x, goodw n (wd x)) by (intros x; exact (tk_wdok _ _ _ _ _ _ _ _ _ TK x)).
  destruct seqs as [|s0 seqs'] eqn:ES; [contradiction|]. rewrite <- ES in *. assert (H0 : hd_error seqs = Some s0) by now rewrite ES. assert (Hs0 : In s0 seqs) by (rewrite ES; now left). clear NE ES seqs'.
  destruct (length s0) as [|len] eqn:L0; [exfalso; apply (HNE s0 Hs0); destruct s0; [reflexivity|discriminate]|].
  assert (VAL : forall s, (forall x, In x s -> (0 <= x < Z.of_nat (t_order tbl))%Z) -> exists w X, sequence_word tbl s = Ok w /\ rep_evaluate_artin_word R w = Ok X /\ sq d X /\ pmeq p X (M gens invs E (fl tbl s))).
  { intros s Ks. destruct (seq_word_total s Ks) as (w & E1 & E2 & E3). destruct (value_ok n r p R d gens invs E EJ ED EG EI Hp1 w E2) as (X & EX & SX & PX & _). rewrite E3 in PX. exists w, X. auto. }
  destruct (integers_gen n r p R d gens invs E EJ ED EG EI Hp1 tb tbl Htb seqs s0 len [] W) as (P & EPP & (W1 & W2 & W3 & W4 & W5 & KP) & PP); auto.
  - intros s Hs. now rewrite <- L0, (HL s s0 Hs Hs0).
  - split; [rewrite (tk_id _ _ _ _ _ _ _ _ _ TK), (tk_word _ _ _ _ _ _ _ _ _ TK), Hone; reflexivity|]. split; [split; constructor|]. intros P0 X EX. destruct (C59_empty_word n r p R d EJ ED) as (A0 & EA & _ & _ & FA). rewrite EX in EA. injection EA as <-.
    intros i j k. unfold mentry. rewrite Forall_forall in FA. destruct (nth_in_or_default (mcols X * i + j) (mdata X) (NI 0)) as [Hin|Hd0]; [destruct (FA _ Hin) as [-> | ->]|rewrite Hd0]; cbn [numcoef]; destruct (k =? 0)%Z; unfold in_dtype; cbn; lia.
  - intros s f Hs Hf. destruct (tk_surj _ _ _ _ _ _ _ _ _ TK f (HR s f Hs Hf)) as [x <-]. rewrite FWx. split; [apply (tk_word _ _ _ _ _ _ _ _ _ TK)|]. split; [apply GW|]. intros P0 X EX.
    intros i j k. unfold in_dtype. cbn [dbits]. change (64 - 1)%Z with 63%Z. apply (BZ P0 s (wd x) X Hs); [|exact EX]. right. exists (idx x). split; [exact Hf|]. unfold sequence_word. cbn [mapM]. rewrite (tk_word _ _ _ _ _ _ _ _ _ TK). cbn [bind concat]. now rewrite app_nil_r.
  - destruct (Z.eq_dec p 0) as [->|P0]; [unfold in_dtype; cbn; lia|]. specialize (BN P0). unfold in_dtype. cbn [dbits]. change (64 - 1)%Z with 63%Z. assert (1 <= Z.of_nat W)%Z by (specialize (HW (D G)); lia).
    assert (p - 1 < 2 ^ 63 - 1)%Z; [|lia]. destruct (Z.eq_dec p 2) as [->|]; [lia|]. assert (2 * (p - 1) <= (p - 1) * (p - 1))%Z by (apply Z.mul_le_mono_nonneg_r; lia). assert ((p - 1) * (p - 1) <= Z.of_nat W * ((p - 1) * (p - 1)))%Z by nia. assert (Z.of_nat W * ((p - 1) * (p - 1)) <= Z.of_nat d * (Z.of_nat W * ((p - 1) * (p - 1))))%Z by nia. lia.
  - intros P0. split; [now apply BN|]. intros s f X Hs Hf EX. destruct (tk_surj _ _ _ _ _ _ _ _ _ TK f (HR s f Hs Hf)) as [x <-]. rewrite FWx in EX. destruct (value_ok n r p R d gens invs E EJ ED EG EI Hp1 (wd x) (GW x)) as (X' & EX' & SX & PX & NX & CX & _). rewrite EX in EX'. injection EX' as <-. specialize (CX P0).
    assert (Q : forall k, has_exponent X k -> (- 2 * nneg' (lift G wd x) <= k <= 2 * npos (lift G wd x))%Z).
    { intros k (i & j & Hi & Hj & N). pose proof SX as (_ & R1 & C1). rewrite R1 in Hi. rewrite C1 in Hj. apply (M_span n r p R d gens invs E (lift G wd x) EJ ED EG HE (word_ok_range n _ (proj1 (GW x))) i j k Hi Hj). intros Dv. specialize (CX i j k Hi Hj).
      apply (meq_ent (NI 0) (neqp p)) in PX; [|apply SX|apply SM]. destruct PX as (_ & _ & PX). specialize (PX i j ltac:(lia) ltac:(lia)). apply neqp_congr in PX. specialize (PX k). change (ent (NI 0) X i j) with (mentry X i j) in PX. change (ent (NI 0) (M gens invs E (expand (wd x))) i j) with (mentry (M gens invs E (lift G wd x)) i j) in PX.
      assert (Dx : (p | numcoef (mentry X i j) k)%Z). { replace (numcoef (mentry X i j) k) with ((numcoef (mentry X i j) k - numcoef (mentry (M gens invs E (lift G wd x)) i j) k) + numcoef (mentry (M gens invs E (lift G wd x)) i j) k)%Z by ring. now apply Z.divide_add_r. }
      destruct Dx as [z Dx]. destruct (Z.eq_dec z 0) as [->|Nz]; [lia|]. assert (1 <= Z.abs z)%Z by lia. nia. }
    intros k k' Hk Hk'. specialize (Q k Hk) as Q1. specialize (Q k' Hk') as Q2. pose proof (npos_nneg (lift G wd x)) as Q3. specialize (HW x). lia.
  - intros P0 k i Hk Hi. assert (Hin : In (nth k seqs s0) seqs) by now apply nth_In. destruct (VAL (firstn i (nth k seqs s0))) as (w & X & E1 & E2 & SX & PX).
    { intros x Hx. apply (HR _ x Hin). rewrite <- (firstn_skipn i). apply in_or_app. now left. }
    pose proof (BZ P0 (nth k seqs s0) w X Hin (or_introl (ex_intro _ i E1)) E2) as FX. change (expand []) with (@nil (nat * bool)). cbn [List.app].
    apply (fits_intro d _ (SM _) Hd). intros a b e La Lb. apply (meq_ent (NI 0) (neqp p)) in PX; [|apply SX|apply SM]. destruct PX as (_ & _ & PX). pose proof SX as (_ & R1 & C1). specialize (PX a b ltac:(lia) ltac:(lia)). apply neqp_congr in PX. specialize (PX e). rewrite P0 in PX. apply Z.divide_0_l in PX. specialize (FX a b e).
    change (ent (NI 0) X a b) with (mentry X a b) in PX. change (ent (NI 0) (M gens invs E (fl tbl (firstn i (nth k seqs s0)))) a b) with (mentry (M gens invs E (fl tbl (firstn i (nth k seqs s0)))) a b) in PX. unfold in_dtype. cbn [dbits]. change (64 - 1)%Z with 63%Z. lia.
  - exists P. split; [exact EPP|]. split; [exact W1|]. do 4 (split; [assumption|]). intros k s Hk. assert (Lk : k < length seqs) by (apply nth_error_Some; congruence). assert (V : valid_index [length seqs] [k]) by (constructor; [exact Lk|constructor]).
    destruct (PP [k] V) as [[(i & j & Hi & Hj & N) _] RG]. split; [|split; [exists i, j; auto|intros P0 i' j' e Hi' Hj'; now apply RG]].
    pose proof (nth_error_In _ _ Hk) as Hin. destruct (VAL s (fun x => HR s x Hin)) as (w & X & E1 & E2 & SX & PX). exists w, X. split; [exact E1|]. split; [exact E2|].
    specialize (KP [k] V). cbv beta in KP. cbn [hd] in KP. rewrite (nth_error_nth _ _ s0 Hk) in KP. change (expand []) with (@nil (nat * bool)) in KP. cbn [List.app] in KP.
    apply (agrees_pmeq p d (M gens invs E (fl tbl s)) X P [k] (SM _) SX); [symmetry; exact PX|exact KP].
Qed.
End Gen.

Lemma expand_nil w : expand w = [] -> Forall (fun l => Z.abs (snd l) = 1%Z) w -> w = [].
Proof. intros Q F. destruct w as [|[i e] w]; [reflexivity|]. exfalso. inversion F as [|? ? K _]; subst. cbn [snd] in K. unfold expand in Q. cbn [flat_map] in Q. apply app_eq_nil in Q. destruct Q as [Q _]. apply (f_equal (@length _)) in Q. cbn in Q. rewrite repeat_length in Q. lia. Qed.
Lemma pwd_one n : 2 <= n -> pwd n (one (PG n)) = [].
Proof.
  intros n2. pose proof (ptab_ok n n2) as TK. apply expand_nil; [|apply (tk_wdok _ _ _ _ _ _ _ _ _ TK (one (PG n)))]. destruct (plift n (one (PG n))) as [u [_ [Ru E]]]. change (val n (one (PG n))) with (val n (pone n)) in Ru. rewrite val_one in Ru.
  change (lift (PG n) (pwd n) (one (PG n)) = []). rewrite E. pose proof (redw_len n u _ Ru) as L. rewrite llen_id in L. destruct u; [reflexivity|discriminate].
Qed.
Lemma nwd_one n : 2 <= n -> NParTable.nwd n (one (NCGerm.NG n)) = [].
Proof.
  intros n2. destruct (NParTable.nwd_ok n (one (NCGerm.NG n))) as (l & _ & F & E & _ & K). apply expand_nil; [|exact K]. rewrite E. change (one (NCGerm.NG n)) with (NCGerm.none n) in F. rewrite NCGerm.nval_one in F.
  pose proof (NCLift.fac_len n _ _ F) as L1. pose proof (NCLift.fac_len n _ _ (NCLift.fac_nil n)) as L2. rewrite <- L2 in L1. destruct l; [reflexivity|discriminate].
Qed.

(** C87.  polymat_evaluate_braid_integers_of_same_length of a non-empty list of
    non-empty sequences of table indices, all of the same length, is a batch with one
    matrix per sequence: the value of the product of its factors divided by a power of
    v, modulo p, projectivised.  The sequences need not be in normal form.  (int64
    bounds as in C61.) *)
Theorem C87_gnf_partial n r p R tb t seqs d : jones_rep n r p = Ok R -> 2 <= n -> gnf_table n tb -> tb n = Ok t -> p <> 1%Z -> rep_dimension R = Ok (Z.of_nat d) ->
  seqs <> [] -> (forall s s', In s seqs -> In s' seqs -> length s = length s') -> (forall s, In s seqs -> s <> []) ->
  (forall s x, In s seqs -> In x s -> (0 <= x < Z.of_nat (t_order t))%Z) ->
  (p <> 0%Z -> (Z.of_nat d * (Z.of_nat (n * (n - 1) + 1) * ((p - 1) * (p - 1))) < 2 ^ 63)%Z) ->
  (p = 0%Z -> forall s w X, In s seqs -> (exists i, sequence_word t (firstn i s) = Ok w) \/ (exists x, In x s /\ sequence_word t [x] = Ok w) -> rep_evaluate_artin_word R w = Ok X -> int64_matrix X) ->
  exists P, polymat_evaluate_integers tb R seqs = Ok P /\ wfa P /\ apre P = [length seqs] /\ aI P = d /\ aJ P = d /\ adt P = I64 /\
    forall k s, nth_error seqs k = Some s -> (exists w X, sequence_word t s = Ok w /\ rep_evaluate_artin_word R w = Ok X /\ is_image p d X P k) /\
      (exists i j, i < d /\ j < d /\ acoef P [k] i j 0 <> 0%Z) /\ (p <> 0%Z -> forall i j e, i < d -> j < d -> (0 <= acoef P [k] i j e < p)%Z).
Proof.
  intros EJ n2 Ht Et Hp1 ED. pose proof (gnf_table_ptab n tb Ht) as Etb. rewrite Et in Etb. injection Etb as ->. intros.
  apply (gen_integers (ptab n) (PG n) (prn n) (peqd n) n (pwd n) (PermGerm.atom n) (idx n) (val n) (ptab_ok n n2) tb Et (pwd_one n n2) r p R d seqs (n * (n - 1) + 1)); auto.
  intros x. now apply gnf_word_length.
Qed.
Theorem C87_dgnf_partial n r p R tab t seqs d : jones_rep n r p = Ok R -> 2 <= n -> PropsDGNF.npar_tables n tab -> ModelNPar.dtb tab n = Ok t -> p <> 1%Z -> rep_dimension R = Ok (Z.of_nat d) ->
  seqs <> [] -> (forall s s', In s seqs -> In s' seqs -> length s = length s') -> (forall s, In s seqs -> s <> []) ->
  (forall s x, In s seqs -> In x s -> (0 <= x < Z.of_nat (t_order t))%Z) ->
  (p <> 0%Z -> (Z.of_nat d * (Z.of_nat (PropsPolyRep3.dual_width n) * ((p - 1) * (p - 1))) < 2 ^ 63)%Z) ->
  (p = 0%Z -> forall s w X, In s seqs -> (exists i, sequence_word t (firstn i s) = Ok w) \/ (exists x, In x s /\ sequence_word t [x] = Ok w) -> rep_evaluate_artin_word R w = Ok X -> int64_matrix X) ->
  exists P, polymat_evaluate_integers (ModelNPar.dtb tab) R seqs = Ok P /\ wfa P /\ apre P = [length seqs] /\ aI P = d /\ aJ P = d /\ adt P = I64 /\
    forall k s, nth_error seqs k = Some s -> (exists w X, sequence_word t s = Ok w /\ rep_evaluate_artin_word R w = Ok X /\ is_image p d X P k) /\
      (exists i j, i < d /\ j < d /\ acoef P [k] i j 0 <> 0%Z) /\ (p <> 0%Z -> forall i j e, i < d -> j < d -> (0 <= acoef P [k] i j e < p)%Z).
Proof.
  intros EJ n2 Ht Et Hp1 ED. pose proof (PropsDGNF.dtb_ok n tab n2 Ht) as Etb. rewrite Et in Etb. injection Etb as ->. intros.
  apply (gen_integers (NParTable.ntab n) (NCGerm.NG n) (NParTable.nrn n) (NCGerm.neqd n) n (NParTable.nwd n) (NCLift.natom n) (NParTable.nidx n) (NParTable.en n) (NParTable.ntab_ok n n2) (ModelNPar.dtb tab) Et (nwd_one n n2) r p R d seqs (PropsPolyRep3.dual_width n)); auto.
  intros x. destruct (NParTable.nwd_ok n x) as [l' [_ [F' [E' _]]]]. unfold lift. rewrite E'. pose proof (DualTwist.fac_length n _ _ F') as L1. pose proof (DualTwist.fac_count n n2 _ _ F') as L2. unfold PropsPolyRep3.dual_width. nia.
Qed.
(** empty sequences: whatever the number of sequences, the result is a batch of one
    matrix, the image of the trivial braid *)
Theorem C87_empty_refuted n r p R tb seqs d : jones_rep n r p = Ok R -> 2 <= n -> gnf_table n tb -> p <> 1%Z -> (p < 2 ^ 63)%Z -> rep_dimension R = Ok (Z.of_nat d) ->
  seqs <> [] -> (forall s, In s seqs -> s = []) ->
  exists P X, polymat_evaluate_integers tb R seqs = Ok P /\ apre P = [1] /\ aI P = d /\ aJ P = d /\ rep_evaluate_artin_word R [] = Ok X /\ is_image p d X P 0.
Proof.
  intros EJ n2 Ht Hp1 Hp63 ED NE HE0. pose proof (gnf_table_ptab n tb Ht) as Etb. pose proof (ptab_ok n n2) as TK.
  destruct (jones_all n r p R EJ) as (d' & gens & invs & E & EN & EP & Hp & Hd & ED' & EG & EI & HE & _). rewrite ED in ED'. injection ED' as ED'. apply Nat2Z.inj in ED'. subst d'.
  destruct (Mfacts n r p R d gens invs E EJ ED EG EI) as (_ & _ & _ & _ & _ & SM & BM & PM).
  destruct (ident_ok n r p R d gens invs E EJ ED EG EI Hp1 tb (ptab n) Etb []) as (P & E1 & (W1 & W2 & W3 & W4 & W5 & KP) & _).
  - split; [rewrite (tk_id _ _ _ _ _ _ _ _ _ TK), (tk_word _ _ _ _ _ _ _ _ _ TK), (pwd_one n n2); reflexivity|]. split; [split; constructor|]. intros P0 X EX. destruct (C59_empty_word n r p R d EJ ED) as (A0 & EA & _ & _ & FA). rewrite EX in EA. injection EA as <-.
    intros i j k. unfold mentry. rewrite Forall_forall in FA. destruct (nth_in_or_default (mcols X * i + j) (mdata X) (NI 0)) as [Hin|Hd0]; [destruct (FA _ Hin) as [-> | ->]|rewrite Hd0]; cbn [numcoef]; destruct (k =? 0)%Z; unfold in_dtype; cbn; lia.
  - unfold in_dtype. cbn [dbits]. change (64 - 1)%Z with 63%Z. lia.
  - destruct (value_ok n r p R d gens invs E EJ ED EG EI Hp1 [] ltac:(split; constructor)) as (X & EX & SX & PX & _). exists P, X.
    split; [|split; [exact W2|split; [exact W3|split; [exact W4|split; [exact EX|]]]]].
    + unfold polymat_evaluate_integers. destruct seqs as [|s0 sq]; [contradiction|]. change (get (s0 :: sq) 0) with (Ok s0). cbn [bind]. rewrite (HE0 s0) by now left.
      assert (F1 : forallb (fun s : list Z => length s =? length (@nil Z)) (s0 :: sq) = true) by (apply forallb_forall; intros s Hs; rewrite (HE0 s Hs); reflexivity).
      assert (F2 : forallb (forallb (fun x => (0 <=? x) && (x <? Z.of_nat (t_order (ptab n))))%Z) (s0 :: sq) = true) by (apply forallb_forall; intros s Hs; rewrite (HE0 s Hs); reflexivity).
      rewrite (HE0 s0) in F1, F2 by now left. rewrite F1. cbn [assert_ bind]. rewrite EN, Etb. cbn [bind]. rewrite F2. cbn [assert_ bind]. destruct (polymat_braid_factor tb R (t_id (ptab n))); [|discriminate]. cbn [bind] in *. rewrite E1. reflexivity.
    + specialize (KP [0] ltac:(constructor; [lia|constructor])). cbv beta in KP. apply (agrees_pmeq p d (M gens invs E (expand [])) X P [0] (SM _) SX); [symmetry; exact PX|exact KP].
Qed.
(** otherwise: no sequences - IndexError; different lengths or an index out of range -
    AssertionError *)
Theorem C87_rejects {A} (tb : nat -> res (nftable A)) R : polymat_evaluate_integers tb R [] = Err IndexError /\
  (forall s ss, (exists s', In s' ss /\ length s' <> length s) -> polymat_evaluate_integers tb R (s :: ss) = Err AssertionError) /\
  (forall seqs t, seqs <> [] -> tb (rep_n R) = Ok t -> (exists s x, In s seqs /\ In x s /\ ~ (0 <= x < Z.of_nat (t_order t))%Z) -> polymat_evaluate_integers tb R seqs = Err AssertionError).
Proof.
  split; [reflexivity|]. assert (K : forall {B} (f : B -> bool) l x, In x l -> f x = false -> forallb f l = false).
  { intros B f l x Hx Fx. destruct (forallb f l) eqn:E; [|reflexivity]. rewrite forallb_forall in E. rewrite (E x Hx) in Fx. discriminate. }
  split.
  - intros s ss (s' & Hs & N). unfold polymat_evaluate_integers. change (get (s :: ss) 0) with (Ok s). cbn [bind]. rewrite (K _ _ _ s'); [reflexivity|now right|]. now apply Nat.eqb_neq.
  - intros seqs t NE Et (s & x & Hs & Hx & N). unfold polymat_evaluate_integers. destruct seqs as [|s0 sq]; [contradiction|]. change (get (s0 :: sq) 0) with (Ok s0). cbn [bind].
    destruct (forallb (fun s => length s =? length s0) (s0 :: sq)); [|reflexivity]. cbn [assert_ bind]. rewrite Et. cbn [bind]. rewrite (K _ _ _ s); [reflexivity|exact Hs|]. apply (K _ _ _ x); [exact Hx|]. apply andb_false_iff. destruct (Z.leb_spec 0 x); [right; apply Z.ltb_ge; lia|left; reflexivity].
Qed.
(** the hypotheses are met: n = 4, r = 2, p = 5, two sequences of three factors, not
    in normal form (the second has the trivial and the longest permutation in it) *)
Example C87_case : exists R t P, jones_rep 4 2 5 = Ok R /\ rep_dimension R = Ok 2%Z /\ gtb hdpick 4 = Ok t /\ t_order t = 24 /\ (2 * (13 * (4 * 4)) < 2 ^ 63)%Z /\
  polymat_evaluate_integers (gtb hdpick) R [[1; 3; 1]; [7; 0; 23]]%Z = Ok P /\ apre P = [2].
Proof.
  destruct (proj1 (proj1 (C58_constructor 4 2 5)) ltac:(lia)) as [R EJ].
  assert (HT : exists t, gtb hdpick 4 = Ok t /\ t_order t = 24). { destruct (gtb hdpick 4) as [t|] eqn:E; [|vm_compute in E; discriminate]. exists t. split; [reflexivity|]. vm_compute in E. injection E as <-. reflexivity. }
  destruct HT as [t [Et Ot]].
  assert (ED : rep_dimension R = Ok 2%Z) by (destruct (jones_rep_ok _ _ _ _ EJ) as (_ & _ & _ & ->); reflexivity).
  assert (H2 : 2 <= 4) by lia. assert (P1 : 5%Z <> 1%Z) by lia.
  assert (NE : [[1; 3; 1]; [7; 0; 23]]%Z <> []) by discriminate.
  assert (HL : forall s s', In s [[1; 3; 1]; [7; 0; 23]]%Z -> In s' [[1; 3; 1]; [7; 0; 23]]%Z -> length s = length s') by (intros s s' [<-|[<-|[]]] [<-|[<-|[]]]; reflexivity).
  assert (HN : forall s, In s [[1; 3; 1]; [7; 0; 23]]%Z -> s <> []) by (intros s [<-|[<-|[]]]; discriminate).
  assert (HR : forall s x, In s [[1; 3; 1]; [7; 0; 23]]%Z -> In x s -> (0 <= x < Z.of_nat (t_order t))%Z) by (rewrite Ot; intros s x [<-|[<-|[]]] Hx; repeat (destruct Hx as [<-|Hx]; [lia|]); destruct Hx).
  assert (HB : 5%Z <> 0%Z -> (Z.of_nat 2 * (Z.of_nat (4 * (4 - 1) + 1) * ((5 - 1) * (5 - 1))) < 2 ^ 63)%Z) by (intros _; reflexivity).
  destruct (C87_gnf_partial 4 2 5 R (gtb hdpick) t [[1; 3; 1]; [7; 0; 23]]%Z 2 EJ H2 gnf_table_ex Et P1 ED NE HL HN HR HB ltac:(intros Q; exfalso; lia)) as (P & EP & _ & AP & _).
  exists R, t, P. repeat (split; [assumption|]). split; [reflexivity|]. split; [exact EP|exact AP].
Qed.
