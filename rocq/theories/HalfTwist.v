(** HalfTwist.v – the Garside element Delta acts on the cell module W(n, r) of
    the Temperley-Lieb algebra as a signed power of v times the reflection of
    half diagrams in a vertical line. *)
From Verif Require Import Base ModelPoly SpecPoly PolyTheory PolyDiv EvalTheory PropsPoly ModelTL SpecTL TLTheory TLAlg TLAlg2 TLBasis TLCells TLRel PropsTL ModelMatrix SpecMatrix MatrixTheory PropsMatrix ModelTLMor TLMorTheory TLGens TLFlip PropsTLMor JonesTheory TLTrace PropsTLMor3 MarkovTheory TLCup TLBurau.
From Verif Require Import SpecBraid BraidTheory FullTwistBraid FullTwist EmbedTheory.
From Coq Require Import Ring Setoid Morphisms Relations.
Local Open Scope nat_scope.
Local Arguments Nat.ltb : simpl never.
Local Arguments Nat.sub : simpl never.

(** ** words *)
Definition hw (n : nat) : bword := pword (Dl 0 (n - 1)).
Lemma hw_range n : in_range n (hw n).
Proof. eapply Forall_impl; [|apply Dl_letters]. cbn. intros [i e]. cbn. lia. Qed.
Lemma hw_pos n : Forall (fun l => snd l = true) (hw n).
Proof. eapply Forall_impl; [|apply Dl_letters]. cbn. tauto. Qed.
Lemma FTw_hw n : FTw n = hw n ++ hw n. Proof. reflexivity. Qed.
(** Delta s_(a+k-1-(i-a)) = s_i Delta on the strands a..a+k *)
Lemma Dl_conj n k : forall a i, a + k < n -> a <= i < a + k -> braid_eq n ([(i, true)] ++ pword (Dl a k)) (pword (Dl a k) ++ [(2 * a + k - 1 - i, true)]).
Proof.
  induction k as [|k IH]; intros a i H Hi; [lia|].
  assert (Up : forall i, a < i < a + S k -> braid_eq n ([(i, true)] ++ pword (Dl a (S k))) (pword (Dl a (S k)) ++ [(2 * a + S k - 1 - i, true)])).
  { clear i Hi. intros i Hi. cbn [Dl]. rewrite pword_app, app_assoc, (IH (S a) i) by lia. rewrite <- !app_assoc. apply be_app; [reflexivity|].
    pose proof (up_comm n (S k) a (2 * a + S k - 1 - i) ltac:(lia) ltac:(lia) ltac:(lia)) as U. replace (2 * a + S k - 1 - i + 1) with (2 * S a + k - 1 - i) in U by lia. exact U. }
  destruct (Nat.eq_dec i a) as [->|N]; [|apply Up; lia]. destruct k as [|k]; [replace (2 * a + 1 - 1 - a) with a by lia; reflexivity|].
  pose proof (be_rev _ _ _ (Up (a + S k) ltac:(lia))) as V. rewrite !rev_app_distr in V. cbn [rev] in V. rewrite !app_nil_l in V.
  replace (2 * a + S (S k) - 1 - (a + S k)) with a in V by lia. replace (2 * a + S (S k) - 1 - a) with (a + S k) by lia.
  pose proof (Dl_rev_at a (S (S k))) as R. assert (R' : braid_eq n (rev (pword (Dl a (S (S k))))) (pword (Dl a (S (S k))))).
  { destruct (Nat.le_exists_sub (a + (S (S k) + 1)) n ltac:(lia)) as (z & Ez & _). apply (EmbedTheory.be_more (a + (S (S k) + 1))); [lia|exact R]. }
  rewrite R' in V. symmetry. exact V.
Qed.
Lemma hw_conj n i : i + 1 < n -> braid_eq n ([(i, true)] ++ hw n) (hw n ++ [(n - 2 - i, true)]).
Proof. intros H. pose proof (Dl_conj n (n - 1) 0 i ltac:(lia) ltac:(lia)) as K. replace (2 * 0 + (n - 1) - 1 - i) with (n - 2 - i) in K by lia. exact K. Qed.
Definition hA (a k : nat) : bword := rev (pword (seq a (S k))) ++ rev (pword (seq (S a) k)).
Lemma hw_split k : braid_eq (S (S k)) (hw (S (S k))) (hA 0 k ++ shw 2 (hw k)).
Proof.
  assert (S1 : forall a k, braid_eq (a + (S k + 1)) (pword (Dl a (S k))) (rev (pword (seq a (S k))) ++ pword (Dl (S a) k))).
  { clear. intros a k. rewrite <- (Dl_rev_at a (S k)) at 1. cbn [Dl]. rewrite pword_app, rev_app_distr. apply be_app; [reflexivity|]. pose proof (Dl_rev_at (S a) k) as K. replace (S a + (k + 1)) with (a + (S k + 1)) in K by lia. exact K. }
  unfold hw at 1. replace (S (S k) - 1) with (S k) by lia. pose proof (S1 0 k) as K. replace (0 + (S k + 1)) with (S (S k)) in K by lia. rewrite K.
  unfold hA. rewrite <- app_assoc. apply be_app; [reflexivity|]. destruct k as [|k]; [reflexivity|]. pose proof (S1 1 k) as K1. replace (1 + (S k + 1)) with (S (S (S k))) in K1 by lia. rewrite K1. unfold hw. replace (S k - 1) with k by lia. rewrite Dl_shift. reflexivity.
Qed.

(** ** moving the word past a cup *)
Section NM.
Variables n m : nat.
Notation "F == G" := (eqf n m F G) (at level 70).
Lemma ev_conj w i i' F : i' + 1 < n -> i + 1 < n -> in_range n w -> braid_eq n ([(i, true)] ++ w) (w ++ [(i', true)]) -> EE n i' (ev n w F) == ev n w (EE n i F).
Proof.
  intros Hi' Hi Hw B d Td. pose proof (ev_braid n m _ _ B ltac:(apply in_range_app; split; [constructor; [exact Hi|constructor]|exact Hw]) F d Td) as K.
  rewrite !ev_app in K. cbn [ev fold_left] in K. fold (ev n w (sgm n F (i, true))) in K. fold (ev n w F) in K. unfold sgm in K. rewrite ev_lin in K. cbn [fst snd] in K. fold (ev n w F) in K. fold (ev n w (EE n i F)) in K.
  set (A := ev n w F d) in *. set (B1 := EE n i' (ev n w F) d) in *. set (C := ev n w (EE n i F) d) in *.
  assert (K' : leq (lmul (cf true) C) (lmul (cf true) B1)).
  { transitivity (lsub (ladd A (lmul (cf true) C)) A); [ring|]. rewrite K. ring. }
  transitivity (lmul (lmul vL vinv) B1); [rewrite v_vinv; ring|]. transitivity (lmul (lmul vL vinv) C); [|rewrite v_vinv; ring].
  transitivity (lneg (lmul vinv (lmul (cf true) B1))); [cbn [cf]; ring|]. rewrite <- K'. cbn [cf]. ring.
Qed.
Fixpoint chain (k j : nat) (F : diag -> lpoly) : diag -> lpoly := match k with 0 => EE n j F | S k => EE n j (chain k (S j) F) end.
Fixpoint hc (k : nat) : lpoly := match k with 0 => lneg (lmul (cf true) (cf true)) | S k => lmul (cf true) (hc k) end.
Lemma hA_swap j k : j + S (S k) < n -> braid_eq n (hA j (S k)) (hA (S j) k ++ [(j, true); (S j, true)]).
Proof.
  intros H. unfold hA. change (seq j (S (S k))) with (j :: seq (S j) (S k)). change (seq (S j) (S k)) with (S j :: seq (S (S j)) k) at 2 3.
  cbn [pword map]. fold (pword (seq (S j) (S k))). fold (pword (seq (S (S j)) k)). cbn [rev]. fold (pword (seq (S (S j)) k)).
  change ((S j, true) :: pword (seq (S (S j)) k)) with (pword (seq (S j) (S k))).
  set (Y := rev (pword (seq (S (S j)) k))).
  assert (C : braid_eq n ([(j, true)] ++ Y) (Y ++ [(j, true)])).
  { unfold Y. rewrite <- pword_rev. apply far_comm; [lia|]. apply Forall_rev. apply Forall_forall. intros i Hi. apply in_seq in Hi. lia. }
  change (rev (pword (seq (S j) (S k)))) with (Y ++ [(S j, true)]). set (Z := Y ++ [(S j, true)]). change [(j, true); (S j, true)] with ([(j, true)] ++ [(S j, true)]).
  transitivity (Z ++ ([(j, true)] ++ Y) ++ [(S j, true)]); [unfold Z; now rewrite <- !app_assoc|]. rewrite C. now rewrite <- !app_assoc.
Qed.
Lemma hA_range j k : j + S k < n -> in_range n (hA j k).
Proof. intros H. unfold hA. apply in_range_app. split; apply in_range_rev, in_range_pseq; lia. Qed.
Lemma hA_e k : forall j F, j + S k < n -> EE n j (ev n (hA j k) F) == (fun d => lmul (hc k) (chain k j F d)).
Proof.
  induction k as [|k IH]; intros j F H.
  - change (hA j 0) with [(j, true)]. eapply eqf_trans; [apply tw0; lia|]. intros d _. cbn [hc chain]. ring.
  - eapply eqf_trans; [apply EE_ext; [lia|apply ev_braid; [apply hA_swap; lia|apply hA_range; lia]]|]. rewrite ev_app.
    set (G := ev n (hA (S j) k) F). pose proof (tw1 n m j G ltac:(lia)) as T1. replace (j + 1) with (S j) in T1 by lia.
    eapply eqf_trans; [exact T1|]. intros d Td. unfold G. rewrite (EE_ext n m j _ _ ltac:(lia) (IH (S j) F ltac:(lia)) d Td). cbn [hc chain]. unfold EE at 1 2. unfold DE. ring.
Qed.
End NM.

Lemma cup_EE_up n m k G : k + 2 < n -> eqf (n - 2) m (DE (cupD k n) (EE n (k + 1) G)) (DE (cupD (k + 1) n) G).
Proof.
  intros H d Td. assert (Te : typed n n (de (k + 1) n)) by (apply de_type; lia). unfold EE. rewrite (DE_comp n n (n - 2) m _ _ _ 0 G Te (cup_typed k n ltac:(lia)) (cup_move k n H) d Td), q2_0. ring.
Qed.
Lemma cup_EE_down n m k G : k + 2 < n -> eqf (n - 2) m (DE (cupD (k + 1) n) (EE n k G)) (DE (cupD k n) G).
Proof.
  intros H d Td. assert (Te : typed n n (de k n)) by (apply de_type; lia). unfold EE. rewrite (DE_comp n n (n - 2) m _ _ _ 0 G Te (cup_typed (k + 1) n ltac:(lia)) (cup_back k n H) d Td), q2_0. ring.
Qed.
Lemma cup_EE_self n m k G : k + 1 < n -> eqf (n - 2) m (DE (cupD k n) (EE n k G)) (fun d => lmul Q2 (DE (cupD k n) G d)).
Proof.
  intros H d Td. assert (Te : typed n n (de k n)) by (apply de_type; lia). unfold EE. rewrite (DE_comp n n (n - 2) m _ _ _ 1 G Te (cup_typed k n ltac:(lia)) (cup_self k n H) d Td), q2_1. ring.
Qed.
Lemma cup_chain n m k : forall j F, j + S (S k) < n -> eqf (n - 2) m (DE (cupD j n) (chain n k (S j) F)) (DE (cupD (j + S k) n) F).
Proof.
  induction k as [|k IH]; intros j F H.
  - cbn [chain]. replace (S j) with (j + 1) by lia. apply cup_EE_up. lia.
  - cbn [chain]. replace (S j) with (j + 1) at 1 by lia. eapply eqf_trans; [apply cup_EE_up; lia|]. replace (j + 1) with (S j) by lia. eapply eqf_trans; [apply IH; lia|]. replace (S j + S k) with (j + S (S k)) by lia. apply eqf_refl.
Qed.
(** Delta_n passes a cup, which moves to the mirror image of its position *)
Lemma cup_half0 k m F : eqf k m (DE (cupD 0 (S (S k))) (ev (S (S k)) (hw (S (S k))) F)) (fun d => lmul (hc k) (ev k (hw k) (DE (cupD k (S (S k))) F) d)).
Proof.
  set (n := S (S k)). assert (TC : typed n k (cupD 0 n)) by (pose proof (cup_typed 0 n ltac:(unfold n; lia)) as T; replace (n - 2) with k in T by (unfold n; lia); exact T).
  set (F1 := ev n (hA 0 k) F). assert (A : eqf n m (ev n (hw n) F) (ev n (shw 2 (hw k)) F1)).
  { unfold F1. rewrite <- ev_app. apply ev_braid; [apply hw_split|apply hw_range]. }
  eapply eqf_trans; [apply (DE_ext n k m _ _ _ TC A)|]. pose proof (slide_word n m (hw k)) as SW. replace (n - 2) with k in SW by (unfold n; lia). eapply eqf_trans; [apply SW; apply hw_range|].
  assert (B : eqf k m (DE (cupD 0 n) F1) (fun d => lmul (hc k) (DE (cupD k n) F d))).
  { intros d Td. destruct Q2_nz as [Q1 Q2n]. apply (lmul_cancel Q2 _ _ Q1 Q2n). pose proof (cup_EE_self n m 0 F1 ltac:(unfold n; lia)) as C. replace (n - 2) with k in C by (unfold n; lia). rewrite <- (C d Td).
    unfold F1. rewrite (DE_ext n k m _ _ _ TC (hA_e n m k 0 F ltac:(unfold n; lia)) d Td). rewrite DE_scale. transitivity (lmul (hc k) (lmul Q2 (DE (cupD k n) F d))); [|ring].
    assert (E : leq (DE (cupD 0 n) (chain n k 0 F) d) (lmul Q2 (DE (cupD k n) F d))); [|now rewrite E].
    destruct k as [|k]; cbn [chain].
    - pose proof (cup_EE_self n m 0 F ltac:(unfold n; lia)) as C'. replace (n - 2) with 0 in C' by (unfold n; lia). apply (C' d Td).
    - pose proof (cup_EE_self n m 0 (chain n k 1 F) ltac:(unfold n; lia)) as C'. replace (n - 2) with (S k) in C' by (unfold n; lia). rewrite (C' d Td).
      pose proof (cup_chain n m k 0 F ltac:(unfold n; lia)) as H. replace (n - 2) with (S k) in H by (unfold n; lia). rewrite (H d Td). reflexivity. }
  eapply eqf_trans; [apply ev_ext; [apply hw_range|exact B]|]. intros d _. apply ev_scale.
Qed.
Lemma cup_half n m : 2 <= n -> forall k, k + 1 < n -> forall F, eqf (n - 2) m (DE (cupD k n) (ev n (hw n) F)) (fun d => lmul (hc (n - 2)) (ev (n - 2) (hw (n - 2)) (DE (cupD (n - 2 - k) n) F) d)).
Proof.
  intros Hn. induction k as [|k IH]; intros Hk F.
  - destruct n as [|[|k]]; [lia|lia|]. replace (S (S k) - 2 - 0) with k by lia. replace (S (S k) - 2) with k by lia. apply cup_half0.
  - pose proof (cup_typed k n ltac:(lia)) as TC. replace (S k) with (k + 1) in * by lia.
    eapply eqf_trans; [apply eqf_sym, cup_EE_up; lia|]. set (i := n - 2 - (k + 1)).
    eapply eqf_trans; [apply (DE_ext n (n - 2) m _ _ _ TC (ev_conj n m (hw n) i (k + 1) F ltac:(lia) ltac:(unfold i; lia) (hw_range n) ltac:(pose proof (hw_conj n i ltac:(unfold i; lia)) as K; replace (n - 2 - i) with (k + 1) in K by (unfold i; lia); exact K)))|].
    eapply eqf_trans; [apply IH; lia|]. intros d Td. replace (n - 2 - k) with (i + 1) by (unfold i; lia).
    rewrite (ev_ext (n - 2) m (hw (n - 2)) (hw_range _) _ _ (cup_EE_down n m i F ltac:(unfold i; lia)) d Td). reflexivity.
Qed.

(** ** reflection in a vertical line *)
Definition rp (t b x : nat) : nat := if x <? b then b - 1 - x else 2 * b + t - 1 - x.
Definition reflects (x y : diag) : Prop := dtop y = dtop x /\ dbot y = dbot x /\ forall i, i < dtop x + dbot x -> nth (rp (dtop x) (dbot x) i) (dseq y) 0 = rp (dtop x) (dbot x) (nth i (dseq x) 0).
Lemma rp_lt t b x : x < t + b -> rp t b x < t + b.
Proof. unfold rp. destruct (Nat.ltb_spec x b); lia. Qed.
Lemma rp_rp t b x : x < t + b -> rp t b (rp t b x) = x.
Proof. unfold rp. intros H. destruct (Nat.ltb_spec x b) as [K|K]; [destruct (Nat.ltb_spec (b - 1 - x) b); lia|destruct (Nat.ltb_spec (2 * b + t - 1 - x) b); lia]. Qed.
Lemma reflects_uniq n m x y z : typed n m x -> typed n m y -> typed n m z -> reflects x y -> reflects x z -> y = z.
Proof.
  intros (X1 & X2 & X3) ((Y0 & Y1) & Y2 & Y3) ((Z0 & Z1) & Z2 & Z3) (_ & _ & A) (_ & _ & B). rewrite X2, X3 in *. destruct y as [a b s], z as [a' b' s']. cbn [dtop dbot dseq] in *. subst a b a' b'. f_equal.
  apply (nth_ext _ _ 0 0); [lia|]. intros i Hi. rewrite <- (rp_rp n m i) by lia. rewrite A, B; [reflexivity| |]; apply rp_lt; lia.
Qed.
Lemma reflects_sym n m x y : typed n m x -> reflects x y -> reflects y x.
Proof.
  intros ((X0 & X1) & X2 & X3) (Y2 & Y3 & A). unfold reflects. rewrite Y2, Y3 in *. rewrite X2, X3 in *. repeat split; auto. intros i Hi. pose proof (A _ (rp_lt n m i Hi)) as K. rewrite rp_rp in K by exact Hi. rewrite K. rewrite rp_rp; [reflexivity|]. destruct (proj1 X0 (rp n m i) ltac:(pose proof (rp_lt n m i Hi); lia)) as [Q _]. lia.
Qed.
Lemma reflects_through n m x y : typed n m x -> reflects x y -> through_all m (dseq x) -> through_all m (dseq y).
Proof.
  intros ((X0 & X1) & X2 & X3) (Y2 & Y3 & A) T i Hi. rewrite X2, X3 in A. assert (E : i = rp n m (rp n m i)) by (rewrite rp_rp; lia). rewrite E. assert (R : rp n m i < m) by (unfold rp; destruct (Nat.ltb_spec i m); lia). rewrite A by lia.
  specialize (T _ R). destruct (proj1 X0 (rp n m i) ltac:(lia)) as [Q _]. unfold rp at 1. destruct (Nat.ltb_spec (nth (rp n m i) (dseq x) 0) m); lia.
Qed.
Definition pmap (f g : nat -> nat) (x : point) : point := match x with Lo i => Lo (f i) | Up i => Up (g i) end.
Lemma reflects_prod a b c u l u' l' : typed a b u -> typed b c l -> typed a b u' -> typed b c l' -> reflects u u' -> reflects l l' -> reflects (fst (dprod u l)) (fst (dprod u' l')).
Proof.
  intros Tu Tl Tu' Tl' Ru Rl. pose proof (dprod_typed _ _ _ _ _ Tu Tl) as TP. pose proof (dprod_typed _ _ _ _ _ Tu' Tl') as TP'.
  destruct Tu as ((Cu & Lu) & U1 & U2), Tl as ((Cl & Ll) & L1 & L2), Tu' as ((Cu' & Lu') & U1' & U2'), Tl' as ((Cl' & Ll') & L1' & L2'). rewrite U1, U2 in Lu. rewrite L1, L2 in Ll. rewrite U1', U2' in Lu'. rewrite L1', L2' in Ll'.
  destruct Ru as (_ & _ & Au), Rl as (_ & _ & Al). rewrite U1, U2 in Au. rewrite L1, L2 in Al.
  destruct (C29_compose (dseq u) (dseq l) b Cu Cl ltac:(lia) ltac:(lia)) as (r & k & Er & Cr & Lr & J & _). destruct (C29_compose (dseq u') (dseq l') b Cu' Cl' ltac:(lia) ltac:(lia)) as (r' & k' & Er' & Cr' & Lr' & J' & _). cbv zeta in *.
  assert (P : fst (dprod u l) = mkD a c r). { unfold dprod. rewrite (tld_mul_ok u l r k); [cbn; congruence|split; auto; lia|split; auto; lia|congruence|now rewrite U2]. }
  assert (P' : fst (dprod u' l') = mkD a c r'). { unfold dprod. rewrite (tld_mul_ok u' l' r' k'); [cbn; congruence|split; auto; lia|split; auto; lia|congruence|now rewrite U2']. }
  rewrite P, P'. split; [reflexivity|]. split; [reflexivity|]. cbn [dtop dbot dseq]. replace (length (dseq l) - b) with c in * by lia. replace (length (dseq l') - b) with c in * by lia. replace (length (dseq u) - b) with a in * by lia. replace (length (dseq u') - b) with a in * by lia.
  assert (Map : forall x y, joined (dseq u) (dseq l) b x y -> joined (dseq u') (dseq l') b (pmap (rp b c) (rp a b) x) (pmap (rp b c) (rp a b) y)).
  { induction 1 as [x y T| |x y _ IH|x y z _ IH1 _ IH2]; [|apply rst_refl|now apply rst_sym|now apply rst_trans with (pmap (rp b c) (rp a b) y)]. apply rst_step. destruct T as [i Hi|i Hi|i Hi]; cbn [pmap].
    - rewrite <- Al by lia. apply arc_lower. rewrite Ll'. apply rp_lt. lia.
    - rewrite <- Au by lia. apply arc_upper. rewrite Lu'. apply rp_lt. lia.
    - pose proof (same_dot (dseq u') (dseq l') b (b - 1 - i) ltac:(lia)) as K. replace (rp b c (length (dseq l) - 1 - i)) with (length (dseq l') - 1 - (b - 1 - i)) by (unfold rp; destruct (Nat.ltb_spec (length (dseq l) - 1 - i) c); lia). replace (rp a b i) with (b - 1 - i) by (unfold rp; destruct (Nat.ltb_spec i b); lia). exact K. }
  assert (Out : forall i, i < a + c -> pmap (rp b c) (rp a b) (outer c b i) = outer c b (rp a c i)).
  { intros i Hi. unfold outer, rp. destruct (Nat.ltb_spec i c) as [Q|Q]; cbn [pmap].
    - destruct (Nat.ltb_spec i c); [|lia]. destruct (Nat.ltb_spec (c - 1 - i) c); [reflexivity|lia].
    - destruct (Nat.ltb_spec (i - c + b) b); [lia|]. destruct (Nat.ltb_spec (2 * c + a - 1 - i) c); [lia|]. f_equal. lia. }
  intros i Hi. destruct (proj1 Cr i ltac:(lia)) as (Q1 & Q2 & _). rewrite Lr in Q1. pose proof (rp_lt a c i Hi) as R1. pose proof (rp_lt a c (nth i r 0) ltac:(lia)) as R2.
  apply J'; try lia.
  - intros E. apply (f_equal (rp a c)) in E. rewrite !rp_rp in E by lia. congruence.
  - rewrite <- !Out by lia. apply Map. apply J; auto; lia.
Qed.
Lemma cup_reflects k n : k + 1 < n -> reflects (cupD k n) (cupD (n - 2 - k) n).
Proof.
  intros Hk. split; [reflexivity|]. split; [reflexivity|]. change (dtop (cupD k n)) with n. change (dbot (cupD k n)) with (n - 2). intros i Hi.
  assert (Inv : forall k x, k + 1 < n -> x < n + (n - 2) -> nth (nth x (dseq (cupD k n)) 0) (dseq (cupD k n)) 0 = x).
  { clear. intros k x Hk Hx. destruct (cup_typed k n Hk) as ((C & L) & T1 & T2). rewrite T1, T2 in L. apply (proj1 C). lia. }
  (* the bottom points *)
  assert (Low : forall k i, k + 1 < n -> i < n - 2 -> nth (n - 3 - i) (dseq (cupD (n - 2 - k) n)) 0 = rp n (n - 2) (nth i (dseq (cupD k n)) 0)).
  { clear. intros k i Hk Hi. destruct (Nat.lt_ge_cases i k) as [Q|Q]; [rewrite (nth_cup_low k n i) by lia; rewrite (nth_cup_high (n - 2 - k)) by lia|rewrite (nth_cup_high k n i) by lia; rewrite (nth_cup_low (n - 2 - k)) by lia]; unfold rp; match goal with |- context [?x <? ?y] => destruct (Nat.ltb_spec x y) end; lia. }
  destruct (Nat.lt_ge_cases i (n - 2)) as [Q|Q].
  - unfold rp at 1. destruct (Nat.ltb_spec i (n - 2)); [|lia]. replace (n - 2 - 1 - i) with (n - 3 - i) by lia. now apply Low.
  - pose proof (nth_cup_cup k n Hk) as C1. pose proof (nth_cup_cup (n - 2 - k) n ltac:(lia)) as C2.
    pose proof (Inv k (2 * n - 3 - k) Hk ltac:(lia)) as C1'. rewrite C1 in C1'. pose proof (Inv (n - 2 - k) (2 * n - 3 - (n - 2 - k)) ltac:(lia) ltac:(lia)) as C2'. rewrite C2 in C2'.
    destruct (Nat.eq_dec i (2 * n - 3 - k)) as [E|N1]; [|destruct (Nat.eq_dec i (2 * n - 4 - k)) as [E|N2]].
    + rewrite E, C1. replace (rp n (n - 2) (2 * n - 3 - k)) with (2 * n - 4 - (n - 2 - k)) by (clear - Hk; unfold rp; destruct (Nat.ltb_spec (2 * n - 3 - k) (n - 2)); lia). rewrite C2'. clear - Hk. unfold rp. destruct (Nat.ltb_spec (2 * n - 4 - k) (n - 2)); lia.
    + rewrite E, C1'. replace (rp n (n - 2) (2 * n - 4 - k)) with (2 * n - 3 - (n - 2 - k)) by (clear - Hk; unfold rp; destruct (Nat.ltb_spec (2 * n - 4 - k) (n - 2)); lia). rewrite C2. clear - Hk. unfold rp. destruct (Nat.ltb_spec (2 * n - 3 - k) (n - 2)); lia.
    + (* the other end is a bottom point *)
      clear C1 C2 C1' C2'.
      set (x := if 2 * n - 3 - k <? i then 2 * n - 3 - i else 2 * n - 5 - i).
      assert (Hx : x < n - 2) by (clear - Hi Q N1 N2 Hk; unfold x; destruct (Nat.ltb_spec (2 * n - 3 - k) i); lia).
      assert (Ex : nth x (dseq (cupD k n)) 0 = i). { unfold x. destruct (Nat.ltb_spec (2 * n - 3 - k) i) as [l|l]; [rewrite nth_cup_low by (clear - Hi Q N1 N2 Hk l; lia); clear - Hi Q N1 N2 Hk l; lia|rewrite nth_cup_high by (clear - Hi Q N1 N2 Hk l; lia); clear - Hi Q N1 N2 Hk l; lia]. }
      clearbody x. assert (Ei : nth i (dseq (cupD k n)) 0 = x). { rewrite <- Ex at 1. apply Inv; lia. }
      rewrite Ei. pose proof (Low k x Hk Hx) as K. rewrite Ex in K. rewrite <- K. rewrite Inv by (clear - Hk Hx; lia). clear - Hx. unfold rp. destruct (Nat.ltb_spec x (n - 2)); lia.
Qed.
Lemma id_reflects n : reflects (did n) (did n).
Proof.
  split; [reflexivity|]. split; [reflexivity|]. cbn [did dtop dbot dseq]. intros i Hi. pose proof (rp_lt n n i Hi) as R. rewrite !nth_id by lia. clear R. unfold rp. destruct (Nat.ltb_spec i n); match goal with |- context [?x <? n] => destruct (Nat.ltb_spec x n) end; lia.
Qed.

(** ** products with a cup have no loops, and keep the through strands *)
Lemma through_prod a b c u l : typed a b u -> typed b c l -> through_all b (dseq u) -> snd (dprod u l) = 0 /\ (through_all c (dseq l) -> through_all c (dseq (fst (dprod u l)))).
Proof.
  intros ((Cu & Lu) & U1 & U2) ((Cl & Ll) & L1 & L2) Th. rewrite U1, U2 in Lu. rewrite L1, L2 in Ll.
  destruct (C29_compose (dseq u) (dseq l) b Cu Cl ltac:(lia) ltac:(lia)) as (r & k & Er & Cr & Lr & J & _ & NL). cbv zeta in *.
  assert (P : dprod u l = (mkD a c r, k)). { unfold dprod. rewrite (tld_mul_ok u l r k); [congruence|split; auto; lia|split; auto; lia|congruence|now rewrite U2]. }
  rewrite P. cbn [fst snd dseq]. replace (length (dseq l) - b) with c in * by lia. replace (length (dseq u) - b) with a in * by lia.
  assert (Top : forall x, x < b -> nth x (dseq u) 0 - b + c < c + a /\ joined (dseq u) (dseq l) b (Up x) (outer c b (nth x (dseq u) 0 - b + c))).
  { intros x Hx. pose proof (Th x Hx) as K. destruct (proj1 Cu x ltac:(lia)) as (Q & _). split; [lia|]. unfold outer. destruct (Nat.ltb_spec (nth x (dseq u) 0 - b + c) c); [lia|]. replace (nth x (dseq u) 0 - b + c - c + b) with (nth x (dseq u) 0) by lia. apply rst_step, arc_upper. lia. }
  split.
  - symmetry. change 0 with (@length nat []). apply NL. split; [intros ? []|]. split; [constructor|]. cbv zeta. intros x (Hx & N). exfalso. destruct (Top x Hx) as [T1 T2]. replace (length (dseq l) - b) with c in N by lia. apply (N (nth x (dseq u) 0 - b + c)); [lia|exact T2].
  - intros Tl i Hi. pose proof (Tl i Hi) as K. destruct (proj1 Cl i ltac:(lia)) as (Q & _). set (y := nth i (dseq l) 0) in *. set (x := length (dseq l) - 1 - y). destruct (Top x ltac:(unfold x; lia)) as [T1 T2].
    enough (E : nth i r 0 = nth x (dseq u) 0 - b + c) by lia. apply J; try lia. apply rst_trans with (Up x); [|exact T2]. unfold outer. destruct (Nat.ltb_spec i c); [|lia]. apply rst_trans with (Lo y); [apply rst_step, arc_lower; lia|].
    pose proof (same_dot (dseq u) (dseq l) b x ltac:(unfold x; lia)) as D. replace (length (dseq l) - 1 - x) with y in D by (unfold x; lia). apply rst_step. exact D.
Qed.

(** ** Delta on the cell module *)
Fixpoint vht (m r : nat) : lpoly := match r with 0 => lint 1 | S r' => lmul (hc (m + 2 * r')) (vht m r') end.
Theorem half_twist m r : forall d, typed (m + 2 * r) m d -> through_all m (dseq d) -> exists d', typed (m + 2 * r) m d' /\ through_all m (dseq d') /\ reflects d d' /\
  forall F, onlythrough (m + 2 * r) m F -> leq (ev (m + 2 * r) (hw (m + 2 * r)) F d) (lmul (vht m r) (F d')).
Proof.
  induction r as [|r IH]; intros d Td Th.
  - replace (m + 2 * 0) with m in * by lia. exists d. split; [exact Td|]. split; [exact Th|]. rewrite (through_id m d Td Th). split; [apply id_reflects|]. intros F O. rewrite pos_id by (auto using hw_range, hw_pos). cbn [vht]. ring.
  - set (n := m + 2 * S r) in *. assert (En : n - 2 = m + 2 * r) by lia. destruct (top_cup d n m Td ltac:(lia)) as [k [Hk E]]. destruct (cupcap k n Hk) as (Tu & Tv & Ecc). rewrite En in Tu, Tv.
    assert (Te : typed n n (de k n)) by now apply de_type.
    set (c := fst (dprod (capD k n) d)). set (kc := snd (dprod (capD k n) d)). assert (Tc : typed (m + 2 * r) m c) by (apply (dprod_typed _ n); auto).
    assert (Thu : forall j, j + 1 < n -> through_all (m + 2 * r) (dseq (cupD j n))) by (intros j Hj; rewrite <- En; now apply cup_through).
    destruct (C30_associative (cupD k n) (capD k n) d) as (xy & n1 & yz & n2 & z & m1 & m2 & H1 & H2 & H3 & H4 & H5); try (destruct Tu as (A1 & A2 & A3), Tv as (B1 & B2 & B3), Td as (D1 & D2 & D3); auto; congruence).
    assert (Exy : xy = de k n /\ n1 = 0) by (unfold dprod in Ecc; rewrite H1 in Ecc; split; congruence). destruct Exy as [-> ->]. assert (Ez : z = d /\ m1 = 1) by (unfold dprod in E; rewrite H2 in E; split; congruence). destruct Ez as [-> ->].
    assert (Ec : yz = c /\ n2 = kc) by (unfold c, kc, dprod; now rewrite H3). destruct Ec as [-> ->].
    destruct (through_prod n (m + 2 * r) m (cupD k n) c Tu Tc (Thu k Hk)) as [S0 _]. assert (Ed : dprod (cupD k n) c = (d, m2)) by (unfold dprod; now rewrite H4). rewrite Ed in S0. cbn [snd] in S0. subst m2. assert (Ekc : kc = 1) by lia. 
    assert (Thc : through_all m (dseq c)).
    { destruct Tu as (A1 & A2 & A3), Tc as (B1 & B2 & B3). apply (dprod_through (cupD k n) c m); try congruence. rewrite Ed. exact Th. }
    destruct (IH c Tc Thc) as (c' & Tc' & Thc' & Rc & IHc). set (k' := n - 2 - k). assert (Hk' : k' + 1 < n) by (unfold k'; lia). pose proof (cup_typed k' n Hk') as Tu'. rewrite En in Tu'.
    destruct (through_prod n (m + 2 * r) m (cupD k' n) c' Tu' Tc' (Thu k' Hk')) as [S0' Th']. exists (fst (dprod (cupD k' n) c')).
    split; [now apply (dprod_typed _ (m + 2 * r))|]. split; [now apply Th'|]. split.
    + replace d with (fst (dprod (cupD k n) c)) by now rewrite Ed. apply (reflects_prod n (m + 2 * r) m); auto. now apply cup_reflects.
    + intros F O. assert (Key : forall G, leq (G d) (DE (cupD k n) G c)) by (intros G; unfold DE; rewrite Ed; cbn [fst snd]; rewrite q2_0; ring).
      rewrite (Key (ev n (hw n) F)). pose proof (cup_half n m ltac:(lia) k Hk F) as CT. rewrite En in CT. rewrite (CT c Tc). replace (m + 2 * r - k) with k' by (unfold k'; lia). rewrite IHc.
      * unfold DE. rewrite S0', q2_0. cbn [vht]. ring.
      * intros x Tx Nx. unfold DE. rewrite (O (fst (dprod (cupD k' n) x))); [ring|now apply (dprod_typed _ (m + 2 * r))|]. intros K. apply Nx. destruct Tu' as (A1 & A2 & A3), Tx as (B1 & B2 & B3). apply (dprod_through (cupD k' n) x m); auto; congruence.
Qed.
Lemma lint_mul a b : leq (lmul (lint a) (lint b)) (lint (a * b)).
Proof. apply leq_L. intros g. rewrite L_mul. unfold lint. rewrite !L_make. cbn [lin]. rewrite !L_make. cbn [lin]. replace (0 + 0)%Z with 0%Z by lia. ring. Qed.
Lemma vht_pow m r : leq (vht m r) (lmul (lint ((-1) ^ Z.of_nat (r * (m + 1)))) (vpow (Z.of_nat (r * (m + r + 1))))).
Proof.
  assert (V : forall a b, leq (lmul (vpow a) (vpow b)) (vpow (a + b))).
  { intros a b. apply leq_L. intros g. unfold vpow. rewrite L_mul, !L_make. cbn [lin]. rewrite !L_make. cbn [lin]. f_equal. ring. }
  assert (A : forall k, leq (hc k) (lmul (lint ((-1) ^ Z.of_nat (k + 1))) (vpow (Z.of_nat (k + 2))))).
  { induction k as [|k IH]; [reflexivity|]. cbn [hc]. rewrite IH. transitivity (lmul (lmul (lint (-1)) (lint ((-1) ^ Z.of_nat (k + 1)))) (lmul (vpow 1) (vpow (Z.of_nat (k + 2))))).
    - assert (C : leq (cf true) (lmul (lint (-1)) (vpow 1))) by reflexivity. rewrite C. ring.
    - rewrite V. replace (1 + Z.of_nat (k + 2))%Z with (Z.of_nat (S k + 2)) by lia. replace (Z.of_nat (S k + 1)) with (Z.succ (Z.of_nat (k + 1))) by lia. rewrite Z.pow_succ_r by lia. rewrite lint_mul. reflexivity. }
  induction r as [|r IH]; [reflexivity|]. cbn [vht]. rewrite IH, A.
  transitivity (lmul (lmul (lint ((-1) ^ Z.of_nat (m + 2 * r + 1))) (lint ((-1) ^ Z.of_nat (r * (m + 1))))) (lmul (vpow (Z.of_nat (m + 2 * r + 2))) (vpow (Z.of_nat (r * (m + r + 1)))))); [ring|].
  rewrite V, lint_mul. rewrite <- Z.pow_add_r by lia. replace (Z.of_nat (m + 2 * r + 2) + Z.of_nat (r * (m + r + 1)))%Z with (Z.of_nat (S r * (m + S r + 1))) by lia.
  replace (Z.of_nat (m + 2 * r + 1) + Z.of_nat (r * (m + 1)))%Z with (Z.of_nat (S r * (m + 1)) + 2 * Z.of_nat r)%Z by lia. rewrite Z.pow_add_r by lia. rewrite (Z.pow_mul_r (-1) 2) by lia. change ((-1) ^ 2)%Z with 1%Z. rewrite Z.pow_1_l by lia. rewrite Z.mul_1_r. reflexivity.
Qed.
