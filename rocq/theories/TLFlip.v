(** TLFlip.v – the bar involution v -> v^-1 and TLMor.flip. *)
From Verif Require Import Base ModelPoly SpecPoly PolyTheory PolyDiv EvalTheory PropsPoly ModelTL SpecTL TLTheory TLAlg TLAlg2 TLBasis TLCells TLRel PropsTL ModelMatrix ModelTLMor TLMorTheory TLGens.
From Coq Require Import Ring Setoid Morphisms.
Local Open Scope Z_scope.

Definition lbar (p : lpoly) : lpoly := lpoly_make (1 - lval p - Z.of_nat (length (lcoeffs p))) (rev (lcoeffs p)).
Lemma lin_rev cs : forall v g, lin (1 - v - Z.of_nat (length cs)) (rev cs) g = lin v cs (fun e => g (- e)).
Proof.
  induction cs as [|c cs IH]; intros v g; [reflexivity|]. cbn [rev length lin]. rewrite lin_app, rev_length. cbn [lin]. rewrite <- (IH (v + 1) g).
  replace (1 - v - Z.of_nat (S (length cs)) + Z.of_nat (length cs)) with (- v) by lia. replace (1 - (v + 1) - Z.of_nat (length cs)) with (1 - v - Z.of_nat (S (length cs))) by lia. lia.
Qed.
Lemma L_bar p g : L (lbar p) g = L p (fun e => g (- e)). Proof. unfold lbar. rewrite L_make. apply lin_rev. Qed.
Lemma coef_bar p k : coef (lbar p) k = coef p (- k).
Proof. rewrite !coef_L, L_bar. apply L_ext. intros e. unfold delta. destruct (Z.eqb_spec (- e) k), (Z.eqb_spec e (- k)); auto; lia. Qed.
#[global] Instance lbar_proper : Proper (leq ==> leq) lbar.
Proof. intros p q H. apply leq_L. intros g. rewrite !L_bar. rewrite leq_L in H. apply H. Qed.
Lemma lbar_bar p : leq (lbar (lbar p)) p.
Proof. apply leq_L. intros g. rewrite !L_bar. apply L_ext. intros e. f_equal. lia. Qed.
Lemma lbar_add p q : leq (lbar (ladd p q)) (ladd (lbar p) (lbar q)).
Proof. apply leq_L. intros g. now rewrite L_bar, !L_add, !L_bar. Qed.
Lemma lbar_mul p q : leq (lbar (lmul p q)) (lmul (lbar p) (lbar q)).
Proof. apply leq_L. intros g. rewrite L_bar, !L_mul, L_bar. apply L_ext. intros e. rewrite L_bar. apply L_ext. intros f. f_equal. lia. Qed.
Lemma lbar_int c : leq (lbar (lint c)) (lint c).
Proof. apply leq_L. intros g. now rewrite L_bar, !L_int. Qed.
Lemma lbar_Q2 : leq (lbar Q2) Q2. Proof. reflexivity. Qed.
Lemma lbar_q2 k : leq (lbar (q2 k)) (q2 k).
Proof. unfold q2. induction k as [|k IH]; cbn [lpn]; [reflexivity|]. now rewrite lbar_mul, IH, lbar_Q2. Qed.

Lemma lprod_mono a k : leq (lprod (lpoly_make a [1]) k) (lpoly_make (a * Z.of_nat k) [1]).
Proof.
  rewrite lprod_lpn. induction k as [|k IH]; cbn [lpn].
  - apply leq_L. intros g. rewrite L_int, L_make. cbn [lin]. replace (a * Z.of_nat 0) with 0 by lia. lia.
  - rewrite IH. apply leq_L. intros g. rewrite L_mul, !L_make. cbn [lin]. rewrite !L_make. cbn [lin]. replace (a * Z.of_nat (S k)) with (a + a * Z.of_nat k) by lia. ring.
Qed.
Lemma lpow_vinv k : exists r, lpow vinv k = Ok r /\ lcanon r /\ forall g, L r g = g (- k).
Proof.
  destruct (Z.lt_ge_cases k 0) as [H|H].
  - destruct (C14_negative_unit (-1) 1 k (or_introl eq_refl) H) as [r [E [Cr Er]]]. exists r. split; [exact E|]. split; [now apply is_lpoly_canon|]. intros g.
    assert (K : leq r (lpoly_make (- k) [1])).
    { assert (M : leq (lmul (lprod (lpoly_make (-1) [1]) (Z.to_nat (- k))) (lpoly_make (- k) [1])) (lint 1)).
      { rewrite lprod_mono. apply leq_L. intros h. rewrite L_mul, L_make, L_int. cbn [lin]. rewrite L_make. cbn [lin]. replace (-1 * Z.of_nat (Z.to_nat (- k)) + - k) with 0 by lia. lia. }
      set (P := lprod _ _) in *. transitivity (lmul (lmul P (lpoly_make (- k) [1])) r); [rewrite M; ring|]. transitivity (lmul (lmul P r) (lpoly_make (- k) [1])); [ring|]. rewrite Er. ring. }
    rewrite leq_L in K. rewrite K, L_make. cbn [lin]. lia.
  - exists (lprod vinv (Z.to_nat k)). split; [apply C14_nonnegative; [exists (-1), [1]; reflexivity|exact H]|]. split.
    + rewrite lprod_lpn. destruct (Z.to_nat k); [apply canon_int|apply canon_mul].
    + intros g. pose proof (lprod_mono (-1) (Z.to_nat k)) as K. rewrite leq_L in K. rewrite K, L_make. cbn [lin]. replace (-1 * Z.of_nat (Z.to_nat k)) with (- k) by lia. lia.
Qed.
Definition numL (s : num) (g : Z -> Z) : Z := match s with NI c => c * g 0 | NL p => L p g end.
Lemma numL_nadd s p g : numL (nadd s (NL p)) g = numL s g + L p g.
Proof. destruct s; cbn [nadd numL]; [rewrite L_addi|rewrite L_add]; lia. Qed.
Lemma eval_loop cs : forall val i s, exists r, foldM (fun s '(i, c) => if c =? 0 then Ok s else xi <- lpow vinv (i + val) ;; Ok (nadd s (NL (lmuli xi c)))) (enumerate i cs) s = Ok r /\
   (forall g, numL r g = numL s g + lin (val + i) cs (fun e => g (- e))) /\
   ((exists p, s = NL p /\ lcanon p) \/ existsb (fun c => negb (c =? 0)) cs = true -> exists p, r = NL p /\ lcanon p).
Proof.
  induction cs as [|c cs IH]; intros val i s; cbn [enumerate foldM existsb lin].
  - exists s. split; [reflexivity|]. split; [intros; lia|]. intros [H|H]; [exact H|discriminate].
  - destruct (Z.eqb_spec c 0) as [->|N]; cbn [bind negb orb].
    + destruct (IH val (i + 1) s) as [r [E [Lr Cr]]]. exists r. split; [exact E|]. split; [|exact Cr]. intros g. rewrite Lr. replace (val + (i + 1)) with (val + i + 1) by lia. lia.
    + destruct (lpow_vinv (i + val)) as [x [Ex [Cx Lx]]]. rewrite Ex. cbn [bind]. destruct (IH val (i + 1) (nadd s (NL (lmuli x c)))) as [r [E [Lr Cr]]]. exists r. split; [exact E|]. split.
      * intros g. rewrite Lr, numL_nadd, L_muli, Lx. replace (val + (i + 1)) with (val + i + 1) by lia. replace (- (i + val)) with (- (val + i)) by lia. lia.
      * intros _. apply Cr. left. destruct s; cbn [nadd]; eexists; (split; [reflexivity|apply canon_make]).
Qed.
Lemma canon_bar p : lcanon (lbar p). Proof. apply canon_make. Qed.
Lemma levaluate_vinv p : lcanon p -> lis_zero p = false -> levaluate p vinv = Ok (NL (lbar p)).
Proof.
  intros C Z. unfold levaluate. destruct (eval_loop (lcoeffs p) (lval p) 0 (NI 0)) as [r [E [Lr Cr]]]. rewrite E. destruct Cr as [q [-> Cq]].
  - right. destruct C as [_ Hl]. unfold lis_zero in Z. destruct (lcoeffs p) as [|c l]; [discriminate|]. destruct (Hl ltac:(discriminate)) as [Hc _]. cbn [hd] in Hc. cbn [existsb]. destruct (Z.eqb_spec c 0); [contradiction|reflexivity].
  - do 2 f_equal. apply canon_eq; [exact Cq|apply canon_bar|]. apply leq_L. intros g. rewrite L_bar. specialize (Lr g). cbn [numL] in Lr. rewrite Lr. replace (lval p + 0) with (lval p) by lia. unfold L. lia.
Qed.

Local Open Scope nat_scope.
Definition dflip (d : diag) : diag := mkD (dbot d) (dtop d) (fl (dseq d)).
Lemma dflip_ok d : diagram d -> tld_flip d = Ok (dflip d) /\ diagram (dflip d). Proof. apply tld_flip_ok. Qed.
Lemma dflip_dflip d : diagram d -> dflip (dflip d) = d.
Proof. intros [C L]. unfold dflip. cbn [dtop dbot dseq]. rewrite fl_fl by now apply crossingless_matched. now destruct d. Qed.
Lemma dflip_type top bot d : typed top bot d -> typed bot top (dflip d).
Proof. intros [D [T B]]. split; [now apply dflip_ok|]. cbn. auto. Qed.
Lemma dprod_flip u l : diagram u -> diagram l -> dbot u = dtop l -> dprod (dflip l) (dflip u) = (dflip (fst (dprod u l)), snd (dprod u l)).
Proof.
  intros Du Dl E. destruct (C35_flip_product u l Du Dl E) as [fx [fy [xy [n [fxy [E1 [E2 [E3 [E4 E5]]]]]]]]].
  destruct (dflip_ok u Du) as [E1' _], (dflip_ok l Dl) as [E2' _]. rewrite E1 in E1'. rewrite E2 in E2'. injection E1' as ->. injection E2' as ->. unfold dprod. rewrite E3, E5. cbn [fst snd].
  destruct (dprod_ok u l Du Dl E) as [K [Dx _]]. unfold dprod in K, Dx. rewrite E3 in K, Dx. cbn [fst] in Dx. destruct (dflip_ok xy Dx) as [E4' _]. rewrite E4 in E4'. injection E4' as ->. reflexivity.
Qed.
Lemma lbar_zero c : lcanon c -> lis_zero (lbar c) = lis_zero c.
Proof.
  intros C. destruct (lis_zero c) eqn:E.
  - apply (lis_zero_spec c C) in E. subst c. reflexivity.
  - destruct (lis_zero (lbar c)) eqn:K; [|reflexivity]. apply (lis_zero_spec _ (canon_bar c)) in K. assert (Z : leq c (lint 0)) by (rewrite <- lbar_bar, K; apply lbar_int).
    apply canon_eq in Z; [|exact C|apply canon_int]. subst c. discriminate.
Qed.
Lemma msum_bar t F : leq (msum (map (fun x => (dflip (fst x), lbar (snd x))) t) F) (lbar (msum t (fun d => lbar (F (dflip d))))).
Proof.
  induction t as [|[d c] t IH]; cbn [map msum fst snd]; [symmetry; apply lbar_int|]. now rewrite lbar_add, lbar_mul, lbar_bar, IH.
Qed.
Lemma tset_new t d c : ~ In d (map fst t) -> tset t d c = t ++ [(d, c)].
Proof.
  induction t as [|[d' c'] t IH]; cbn [tset map fst app]; [reflexivity|]. intros H. destruct (diag_eqb_spec d' d) as [->|]; [exfalso; apply H; now left|]. rewrite IH; [reflexivity|]. intros K. apply H. now right.
Qed.
Lemma mor_flip_ok b m : wf m -> exists r, mor_flip b m = Ok r /\ wf r /\ motop r = mobot m /\ mobot r = motop m /\
  (forall F, leq (msum (moterms r) F) (lbar (msum (moterms m) (fun d => lbar (F (dflip d)))))).
Proof.
  intros W. unfold mor_flip. pose proof W as [[N T C] _ Z].
  assert (K : forall t acc, NoDup (map fst acc ++ map (fun x => dflip (fst x)) t) -> (forall x, In x t -> In x (moterms m)) ->
     foldM (fun t '(d, c) => d' <- tld_flip d ;; x <- levaluate c (lpoly_make (-1) [1]%Z) ;; match x with NI _ => Err TypeError | NL c' => Ok (tset t d' c') end) t acc =
     Ok (acc ++ map (fun x => (dflip (fst x), lbar (snd x))) t)).
  { induction t as [|[d c] t IH]; intros acc Nd Ht; cbn [foldM map fst snd]; [now rewrite app_nil_r|].
    pose proof (Ht _ (or_introl eq_refl)) as Hx. destruct (dflip_ok d (proj1 (T _ Hx))) as [-> _]. cbn [bind]. change (lpoly_make (-1) [1]%Z) with vinv. rewrite levaluate_vinv by (first [apply (C _ Hx)|apply (Z _ Hx)]). cbn [bind].
    cbn [map fst] in Nd. rewrite tset_new. 2:{ intros K. apply NoDup_remove_2 in Nd. apply Nd. apply in_or_app. now left. }
    change vinv with (lpoly_make (-1) [1]%Z). rewrite IH.
    - now rewrite <- app_assoc.
    - rewrite map_app, <- app_assoc. exact Nd.
    - intros x Hx'. apply Ht. now right. }
  rewrite (K (moterms m) []); [|cbn [app map]|auto].
  - cbn [bind app]. assert (D : isdict (mobot m) (motop m) (map (fun x => (dflip (fst x), lbar (snd x))) (moterms m))).
    { split.
      - rewrite map_map. cbn [fst]. clear K Z C. induction (moterms m) as [|[d c] t IH]; cbn [map fst] in *; [constructor|]. inversion N as [|? ? N1 N2]; subst. constructor; [|apply IH; [exact N2|intros; apply T; now right]].
        intros Hx. apply in_map_iff in Hx. destruct Hx as [[e c'] [E He]]. cbn [fst] in E. apply N1. apply (f_equal dflip) in E. rewrite !dflip_dflip in E; [|apply (T (d, c)); now left|apply (T (e, c')); now right]. subst e. apply in_map_iff. exists (d, c'). auto.
      - intros x Hx. apply in_map_iff in Hx. destruct Hx as [y [<- Hy]]. cbn [fst]. apply dflip_type, (T _ Hy).
      - intros x Hx. apply in_map_iff in Hx. destruct Hx as [y [<- Hy]]. cbn [snd]. apply canon_bar. }
    destruct (mor_make_ok _ _ _ D) as [r [E [Wr [Tr [Br [Sr _]]]]]]. exists r. split; [exact E|]. split; [exact Wr|]. split; [exact Tr|]. split; [exact Br|]. intros F. rewrite Sr. apply msum_bar.
  - clear K Z C. induction (moterms m) as [|[d c] t IH]; cbn [map fst] in *; [constructor|]. inversion N as [|? ? N1 N2]; subst. constructor; [|apply IH; [exact N2|intros; apply T; now right]].
    intros Hx. apply in_map_iff in Hx. destruct Hx as [[e c'] [E He]]. cbn [fst] in E. apply N1. apply (f_equal dflip) in E. rewrite !dflip_dflip in E; [|apply (T (d, c)); now left|apply (T (e, c')); now right]. subst e. apply in_map_iff. exists (d, c'). auto.
Qed.
Lemma mor_flip_flip b b' m r : wf m -> mor_flip b m = Ok r -> mor_flip b' r = Ok m.
Proof.
  intros W E. destruct (mor_flip_ok b m W) as [? [E' [Wr [T [B S]]]]]. rewrite E in E'. injection E' as <-. destruct (mor_flip_ok b' r Wr) as [s [-> [Ws [T' [B' S']]]]]. f_equal. apply wf_eqF; auto; try congruence.
  intros F. rewrite S', S, lbar_bar. apply msum_ext. intros x Hx. rewrite lbar_bar, dflip_dflip; [reflexivity|]. apply (id_typed _ _ _ (wf_dict _ W) _ Hx).
Qed.
Lemma mor_flip_mul b x y xy : wf x -> wf y -> mor_mul x y = Ok xy -> exists fx fy r, mor_flip b x = Ok fx /\ mor_flip b y = Ok fy /\ mor_flip b xy = Ok r /\ mor_mul fy fx = Ok r.
Proof.
  intros Wx Wy E. assert (B : mobot x = motop y) by (unfold mor_mul in E; destruct (Nat.eqb_spec (mobot x) (motop y)); [assumption|discriminate]).
  destruct (mor_mul_ok x y Wx Wy B) as [? [E1 [W1 [T1 [B1 S1]]]]]. rewrite E in E1. injection E1 as <-.
  destruct (mor_flip_ok b x Wx) as [fx [Ex [Wfx [Tx [Bx Sx]]]]], (mor_flip_ok b y Wy) as [fy [Ey [Wfy [Ty [By Sy]]]]], (mor_flip_ok b xy W1) as [r [Er [Wr [Tr [Br Sr]]]]].
  exists fx, fy, r. split; [exact Ex|]. split; [exact Ey|]. split; [exact Er|]. destruct (mor_mul_ok fy fx Wfy Wfx ltac:(congruence)) as [s [-> [Ws [Ts [Bs Ss]]]]]. f_equal. apply wf_eqF; auto; try congruence.
  intros F. rewrite Ss, Sr, S1. unfold bil. rewrite Sy. apply lbar_proper. rewrite msum_swap. apply msum_ext. intros l Hl. rewrite Sx, lbar_bar. apply msum_ext. intros u Hu.
  pose proof (id_typed _ _ _ (wf_dict _ Wx) _ Hu) as [Du [Tu Bu]]. pose proof (id_typed _ _ _ (wf_dict _ Wy) _ Hl) as [Dl [Tl Bl]]. rewrite dprod_flip by congruence. cbn [fst snd]. now rewrite lbar_mul, lbar_q2.
Qed.
