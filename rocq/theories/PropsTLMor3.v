(** PropsTLMor3.v – C88 (TLExtDiag bookkeeping), C89 (traces), C90 (the small
    TLMor and TLCell operations). *)
From Verif Require Import Base ModelPoly SpecPoly PolyTheory PolyDiv EvalTheory PropsPoly ModelTL SpecTL TLTheory TLAlg TLAlg2 TLBasis TLCells TLRel PropsTL ModelMatrix SpecMatrix MatrixTheory PropsMatrix ModelTLMor TLMorTheory TLGens PropsTLMor JonesTheory TLTrace.
From Coq Require Import Ring Setoid Morphisms Permutation Relations.
Local Open Scope nat_scope.

(** ** C88 *)
Lemma tle_ok d : ediagram d -> tle (etop d) (ebot d) (eseq d) (ebubbles d) = Ok d.
Proof.
  intros [C L]. unfold tle. destruct (Nat.eqb_spec (etop d + ebot d) (length (eseq d))); [|lia]. cbn [assert_ bind]. rewrite is_cm_true by exact C. now destruct d.
Qed.
(** the constructor accepts exactly the crossingless matchings of top + bot points *)
Theorem C88_constructor top bot s k : (tle top bot s k = Ok (mkE top bot s k) /\ ediagram (mkE top bot s k)) \/
  (tle top bot s k = Err AssertionError /\ ~ (crossingless s /\ length s = top + bot)).
Proof.
  unfold tle. destruct (Nat.eqb_spec (top + bot) (length s)) as [E|E]; cbn [assert_ bind]; [|right; split; [reflexivity|intros [_ K]; lia]].
  destruct (is_cm_spec s) as [b [-> Hb]]. destruct b; cbn [assert_ bind]; [left|right]; (split; [reflexivity|]).
  - split; [now apply Hb|cbn; lia].
  - intros [K _]. apply Hb in K. discriminate.
Qed.
(** e(i, n): i + 1 < n is required; the points i, i+1 of the bottom are joined,
    so are the two points above them, every other point runs straight up; there
    are no bubbles *)
Theorem C88_e i n : (n <= i + 1 -> tle_e i n = Err AssertionError) /\
  (i + 1 < n -> exists d, tle_e i n = Ok d /\ ediagram d /\ etop d = n /\ ebot d = n /\ ebubbles d = 0%Z /\
     forall j, j < n -> let up := fun x => 2 * n - 1 - x in
       if j =? i then nth j (eseq d) 0 = i + 1 /\ nth (up j) (eseq d) 0 = up (i + 1)
       else if j =? i + 1 then nth j (eseq d) 0 = i /\ nth (up j) (eseq d) 0 = up i
       else nth j (eseq d) 0 = up j /\ nth (up j) (eseq d) 0 = j).
Proof.
  split; intros H; unfold tle_e; destruct (Nat.ltb_spec (S i) n); try lia; cbn [assert_ bind]; [reflexivity|].
  assert (D : ediagram (mkE n n (e_seq i n) 0)) by (split; [apply crossingless_e; lia|cbn [eseq etop ebot]; rewrite e_seq_length; lia]).
  exists (mkE n n (e_seq i n) 0). split; [exact (tle_ok _ D)|]. split; [exact D|]. do 3 (split; [reflexivity|]). intros j Hj. cbv zeta. cbn [eseq].
  destruct (Nat.eqb_spec j i) as [->|N1]; [|destruct (Nat.eqb_spec j (i + 1)) as [->|N2]]; rewrite !nth_e by lia;
    repeat match goal with |- context [if ?a =? ?b then _ else _] => destruct (Nat.eqb_spec a b) end; try lia; split; lia.
Qed.
Theorem C88_id n : exists d, tle_id n = Ok d /\ ediagram d /\ etop d = n /\ ebot d = n /\ ebubbles d = 0%Z /\ tld_id n = Ok (plain d).
Proof.
  assert (D : ediagram (mkE n n (id_seq n) 0)) by (split; [apply crossingless_id|cbn [eseq etop ebot]; rewrite id_seq_length; lia]).
  exists (mkE n n (id_seq n) 0). split; [exact (tle_ok _ D)|]. split; [exact D|]. do 3 (split; [reflexivity|]). apply tld_id_ok.
Qed.
(** x @ y juxtaposes the diagrams and adds the bubbles *)
Theorem C88_tensor x y : ediagram x -> ediagram y -> exists z, tle_tensor x y = Ok z /\ ediagram z /\ tld_tensor (plain x) (plain y) = Ok (plain z) /\ (ebubbles z = ebubbles x + ebubbles y)%Z.
Proof.
  intros [Cx Lx] [Cy Ly]. destruct (tld_tensor_ok (plain x) (plain y)) as [E D]; [split; auto|split; auto|]. cbn [plain dtop dbot dseq] in E, D.
  set (s := ins (eseq x) (eseq y) (ebot x)) in *. assert (De : ediagram (mkE (etop x + etop y) (ebot x + ebot y) s (ebubbles x + ebubbles y))) by exact D.
  exists (mkE (etop x + etop y) (ebot x + ebot y) s (ebubbles x + ebubbles y)). split.
  - unfold tle_tensor. rewrite insert_ins. destruct (Nat.leb_spec (ebot x) (length (eseq x))); [|lia]. cbn [bind]. exact (tle_ok _ De).
  - split; [exact De|]. split; [exact E|reflexivity].
Qed.
(** add_bubbles changes only the number of bubbles; split separates it *)
Theorem C88_add_bubbles x k : ediagram x -> exists z, tle_add_bubbles x k = Ok z /\ plain z = plain x /\ (ebubbles z = ebubbles x + k)%Z.
Proof.
  intros [C L]. exists (mkE (etop x) (ebot x) (eseq x) (ebubbles x + k)). split; [|split; reflexivity]. unfold tle_add_bubbles.
  apply (tle_ok (mkE (etop x) (ebot x) (eseq x) (ebubbles x + k))). split; assumption.
Qed.
Theorem C88_split x : ediagram x -> exists z, tle_split x = Ok (z, ebubbles x) /\ plain z = plain x /\ ebubbles z = 0%Z /\ tle_add_bubbles z (ebubbles x) = Ok x.
Proof.
  intros Dx. destruct Dx as [C L] eqn:?. exists (mkE (etop x) (ebot x) (eseq x) 0). split; [|split; [reflexivity|split; [reflexivity|]]].
  - unfold tle_split. pose proof (tle_ok (mkE (etop x) (ebot x) (eseq x) 0)) as K. cbn [etop ebot eseq ebubbles] in K. rewrite K by (split; assumption). reflexivity.
  - unfold tle_add_bubbles. cbn [etop ebot eseq ebubbles]. now apply tle_ok.
Qed.
Example C88_nontrivial : ediagram (mkE 3 3 (e_seq 0 3) 2) /\ (exists z, tle_tensor (mkE 3 3 (e_seq 0 3) 2) (mkE 3 3 (e_seq 1 3) 5) = Ok z /\ ebubbles z = 7%Z).
Proof. split; [split; [apply crossingless_e; lia|reflexivity]|]. eexists. split; [vm_compute; reflexivity|reflexivity]. Qed.

(** ** C89 *)
(** trace_count: the number of loops when every point is joined with the point
    vertically opposite *)
Theorem C89_trace_count s : crossingless s -> exists n, trace_count s = Ok n /\ (exists l, closure_loops s l) /\ forall l, closure_loops s l -> length l = n.
Proof. apply trace_count_ok. Qed.
(** the number of loops as a total function *)
Definition tcount (s : list nat) : nat := match trace_count s with Ok n => n | Err _ => 0 end.
Lemma tcount_ok s : crossingless s -> trace_count s = Ok (tcount s).
Proof. intros C. unfold tcount. destruct (trace_count_ok s C) as [n [-> _]]. reflexivity. Qed.
Lemma mor_trace_ok m : wf m -> exists t, mor_trace m = Ok t /\ lcanon t /\ leq t (msum (moterms m) (fun d => q2 (tcount (dseq d)))).
Proof.
  intros W. unfold mor_trace. assert (T : forall x, In x (moterms m) -> crossingless (dseq (fst x))) by (intros x Hx; apply (id_typed _ _ _ (wf_dict _ W) x Hx)). clear W.
  assert (K : forall l a, (forall x, In x l -> crossingless (dseq (fst x))) -> lcanon a -> exists t, foldM (fun result '(d, c) => k <- trace_count (dseq d) ;; q <- lpow Q2 (Z.of_nat k) ;; Ok (ladd result (lmul c q))) l a = Ok t /\ lcanon t /\ leq t (ladd a (msum l (fun d => q2 (tcount (dseq d)))))).
  { induction l as [|[d c] l IH]; intros a H Ca; cbn [foldM msum fst snd].
    - exists a. split; [reflexivity|]. split; [exact Ca|]. ring.
    - rewrite (tcount_ok (dseq d)) by exact (H _ (or_introl eq_refl)). cbn [bind]. rewrite lpow_pos by (try apply canon_make; lia). rewrite Nat2Z.id. cbn [bind].
      destruct (IH (ladd a (lmul c (lpn Q2 (tcount (dseq d)))))) as [t [E [Ct Et]]]; [intros; apply H; now right|apply canon_make|]. exists t. split; [exact E|]. split; [exact Ct|]. rewrite Et. unfold q2. ring. }
  destruct (K (moterms m) L0 T ltac:(apply canon_make)) as [t [E [Ct Et]]]. exists t. split; [exact E|]. split; [exact Ct|]. rewrite Et, L0_int. ring.
Qed.
(** trace of a morphism: the sum over its terms c d of c (v + v^-1)^(loops of the closure of d) *)
Theorem C89_trace m (F : diag -> nat) : morphism m -> (forall d c, In (d, c) (moterms m) -> exists l, closure_loops (dseq d) l /\ length l = F d) ->
  mor_trace m = Ok (lsum (map (fun x => lmul (snd x) (lprod (lpoly_make (-1) [1; 0; 1]%Z) (F (fst x)))) (moterms m))).
Proof.
  intros Hm H. apply morphism_wf in Hm. destruct (mor_trace_ok m Hm) as [t [E [C Et]]]. rewrite E. f_equal. apply canon_eq; [exact C|apply canon_lsum|]. rewrite Et.
  assert (K : forall d c, In (d, c) (moterms m) -> tcount (dseq d) = F d).
  { intros d c Hx. destruct (H d c Hx) as [l [Hl <-]]. destruct (id_typed _ _ _ (wf_dict _ Hm) _ Hx) as [[Cd _] _]. cbn [fst] in Cd. destruct (trace_count_ok _ Cd) as [k [Ek [_ U]]].
    unfold tcount. rewrite Ek. symmetry. auto. }
  clear - K. induction (moterms m) as [|[d c] l IH]; cbn [msum map fst snd]; [reflexivity|]. rewrite lsum_cons, IH by (intros; eapply K; right; eassumption).
  unfold q2. rewrite lprod_lpn, (K d c) by now left. reflexivity.
Qed.
Theorem C89_trace_linear x y s c : morphism x -> morphism y -> mor_add x y = Ok s -> exists tx ty tc r, mor_trace x = Ok tx /\ mor_trace y = Ok ty /\ mor_trace s = Ok (ladd tx ty) /\
  mor_scale x (NL c) = Ok r /\ mor_trace r = Ok tc /\ leq tc (lmul c tx).
Proof.
  intros Hx Hy E. apply morphism_wf in Hx, Hy. destruct (mor_trace_ok x Hx) as [tx [Ex [Cx Sx]]], (mor_trace_ok y Hy) as [ty [Ey [Cy Sy]]].
  destruct (mor_scale_ok x (NL c) Hx) as [r [Er [Wr [_ [_ Sr]]]]]. destruct (mor_trace_ok r Wr) as [tc [Ec [Cc Sc]]].
  assert (T : motop x = motop y /\ mobot x = mobot y).
  { unfold mor_add in E. destruct (Nat.eqb_spec (motop x) (motop y)), (Nat.eqb_spec (mobot x) (mobot y)); try discriminate. auto. }
  destruct (mor_add_ok x y Hx Hy (proj1 T) (proj2 T)) as [s' [Es [Ws [_ [_ Ss]]]]]. rewrite E in Es. injection Es as <-. destruct (mor_trace_ok s Ws) as [ts [Ets [Cs Sts]]].
  exists tx, ty, tc, r. split; [exact Ex|]. split; [exact Ey|]. split.
  - rewrite Ets. f_equal. apply canon_eq; [exact Cs|apply canon_make|]. rewrite Sts, Ss, Sx, Sy. reflexivity.
  - split; [exact Er|]. split; [exact Ec|]. rewrite Sc, Sr, Sx. reflexivity.
Qed.
(** trace(x y) = trace(y x), also for rectangular x and y *)
Lemma dprod_cyclic u l : diagram u -> diagram l -> dbot u = dtop l -> dbot l = dtop u ->
  snd (dprod u l) + tcount (dseq (fst (dprod u l))) = snd (dprod l u) + tcount (dseq (fst (dprod l u))).
Proof.
  intros Du Dl E1 E2. pose proof (C29_mul u l Du Dl) as K. rewrite E1, Nat.eqb_refl in K. destruct K as [z [k [K [[Cz Lz] [Tz [Bz Kc]]]]]].
  pose proof (C29_mul l u Dl Du) as K'. rewrite E2, Nat.eqb_refl in K'. destruct K' as [z' [k' [K' [[Cz' Lz'] [Tz' [Bz' Kc']]]]]].
  unfold dprod. rewrite K, K'. cbn [fst snd]. destruct Du as [Cu Lu], Dl as [Cl Ll]. rewrite <- E1 in Kc. rewrite <- E2 in Kc'.
  eapply (trace_cyclic (dseq u) (dseq l) (dbot l) (dbot u)); try eassumption; try lia; now apply tcount_ok.
Qed.
Theorem C89_trace_cyclic x y : morphism x -> morphism y -> mobot x = motop y -> mobot y = motop x ->
  exists xy yx t, mor_mul x y = Ok xy /\ mor_mul y x = Ok yx /\ mor_trace xy = Ok t /\ mor_trace yx = Ok t.
Proof.
  intros Hx Hy E1 E2. apply morphism_wf in Hx, Hy. destruct (mor_mul_ok x y Hx Hy E1) as [xy [Exy [Wxy [_ [_ Sxy]]]]], (mor_mul_ok y x Hy Hx E2) as [yx [Eyx [Wyx [_ [_ Syx]]]]].
  destruct (mor_trace_ok xy Wxy) as [t [Et [Ct St]]], (mor_trace_ok yx Wyx) as [t' [Et' [Ct' St']]].
  exists xy, yx, t. split; [exact Exy|]. split; [exact Eyx|]. split; [exact Et|]. rewrite Et'. f_equal. apply canon_eq; auto. rewrite St, St', Sxy, Syx. unfold bil.
  rewrite (msum_swap (moterms y) (moterms x)). apply msum_ext. intros u Hu. apply msum_ext. intros l Hl. rewrite <- !q2_add.
  destruct (id_typed _ _ _ (wf_dict _ Hx) _ Hu) as [Du [Tu Bu]], (id_typed _ _ _ (wf_dict _ Hy) _ Hl) as [Dl [Tl Bl]].
  rewrite (dprod_cyclic (fst u) (fst l)) by (auto; congruence). reflexivity.
Qed.
(** the closure of e_0 in TL_3 has two loops, that of the identity three *)
Example C89_nontrivial : trace_count (e_seq 0 3) = Ok 2 /\ trace_count (id_seq 3) = Ok 3 /\ (exists x, mor_e 0 3 = Ok x /\ mor_trace x = Ok (lpoly_make (-2) [1; 0; 2; 0; 1]%Z)).
Proof. split; [vm_compute; reflexivity|]. split; [vm_compute; reflexivity|]. eexists. split; [vm_compute; reflexivity|]. vm_compute. reflexivity. Qed.

(** ** C90 *)
(** TLMor.basis(top, bot): one morphism for every diagram, with coefficient 1 *)
Theorem C90_basis top bot : if (top + bot) mod 2 =? 0 then
    exists ds ms, mor_basis top bot = Ok ms /\ NoDup ds /\ (forall d, In d ds <-> of_type top bot d) /\
      Forall2 (fun d m => morphism m /\ motop m = top /\ mobot m = bot /\ has_coef m d (lint 1) /\ forall e, of_type top bot e -> e <> d -> has_coef m e (lint 0)) ds ms
  else mor_basis top bot = Err AssertionError.
Proof.
  pose proof (C32_tl_basis top bot) as B. destruct ((top + bot) mod 2 =? 0); [|unfold mor_basis; now rewrite B]. destruct B as [ds [E [N I]]]. exists ds.
  unfold mor_basis. rewrite E. cbn [bind].
  assert (K : forall l, (forall d, In d l -> of_type top bot d) -> exists ms, mapM (fun d => mor_make top bot [(d, L1)]) l = Ok ms /\
     Forall2 (fun d m => morphism m /\ motop m = top /\ mobot m = bot /\ has_coef m d (lint 1) /\ forall e, of_type top bot e -> e <> d -> has_coef m e (lint 0)) l ms).
  { induction l as [|d l IH]; intros H; cbn [mapM]; [exists []; split; [reflexivity|constructor]|].
    destruct (H d (or_introl eq_refl)) as [Dd [Td Bd]].
    assert (ID : is_dict [(d, L1)]). { split; [repeat constructor; auto|]. intros e c [[= <- <-]|[]]. split; [exact Dd|]. eexists _, _. reflexivity. }
    destruct (C36_constructor top bot _ ID) as [_ Q]. destruct Q as [m [Em [Tm [Bm [C1 C2]]]]]; [intros e c [[= <- <-]|[]]; auto|]. rewrite Em. cbn [bind].
    destruct (IH ltac:(intros; apply H; now right)) as [ms [-> F]]. cbn [bind]. exists (m :: ms). split; [reflexivity|]. constructor; [|exact F].
    split; [exists top, bot, [(d, L1)]; auto|]. split; [exact Tm|]. split; [exact Bm|]. split; [apply C1; now left|]. intros e Te Ne. apply C2; [exact Te|]. intros [K|[]]. now apply Ne. }
  destruct (K ds) as [ms [-> F]]; [intros d Hd; now apply I|]. exists ms. split; [reflexivity|]. split; [exact N|]. split; [exact I|exact F].
Qed.
(** is_zero: exactly when every coefficient is zero *)
Theorem C90_is_zero m : morphism m -> (mor_is_zero m = true <-> forall d, of_type (motop m) (mobot m) d -> has_coef m d (lint 0)).
Proof.
  intros Hm. pose proof (C36_stored_terms m Hm) as [S [N _]]. apply morphism_wf in Hm. unfold mor_is_zero. split.
  - intros H d [Dd [Td Bd]]. destruct (moterms m) as [|x l] eqn:E; [|discriminate]. unfold has_coef, mor_coefficient. rewrite Td, Bd, !Nat.eqb_refl, E. reflexivity.
  - intros H. destruct (moterms m) as [|[d c] l] eqn:E; [reflexivity|]. exfalso. destruct (S d c (or_introl eq_refl)) as [Nc Td]. apply Nc. specialize (H d Td).
    unfold has_coef, mor_coefficient in H. destruct Td as [Dd [Td Bd]]. rewrite Td, Bd, !Nat.eqb_refl, E in H. cbn [negb andb tget] in H. rewrite diag_eqb_refl in H. congruence.
Qed.
(** project_vector(m) for m of type (k, n): the diagrams with fewer than n - 2r
    through strands are dropped; every other type is refused *)
Theorem C90_project_vector n r m : morphism m ->
  (mobot m <> n -> project_vector n r m = Err AssertionError) /\
  (mobot m = n -> exists q, project_vector n r m = Ok q /\ morphism q /\ motop q = motop m /\ mobot q = mobot m /\
    forall d c, of_type (motop m) (mobot m) d -> has_coef m d c -> has_coef q d (if n - 2 * r <=? through_strands d then c else lint 0)).
Proof.
  intros Hm. unfold project_vector. split; intros H; destruct (Nat.eqb_spec (mobot m) n); try contradiction; cbn [assert_ bind]; [reflexivity|]. apply C36_quotient. exact Hm.
Qed.
(** in particular the elements of the cell module TLCell(n, r) itself, which
    have type (n, n - 2r), are refused for every r >= 1 *)
Theorem C90_project_vector_refuted n r d m : 1 <= r -> 2 * r <= n -> of_type n (n - 2 * r) d -> mor_of_diag d = Ok m -> project_vector n r m = Err AssertionError.
Proof.
  intros H1 H2 [Dd [Td Bd]] E. destruct (mor_of_diag_ok d Dd) as [m' [E' [W [T [B _]]]]]. rewrite E in E'. injection E' as <-. apply C90_project_vector; [now apply morphism_wf|]. lia.
Qed.
(** project_leftmult_matrix is the matrix of the cell representation: column j
    holds the coefficients of m * (basis vector j) *)
Theorem C90_leftmult_matrix n r m B : 2 * r <= n -> morphism m -> motop m = n -> mobot m = n -> cell_basis n r = Ok B -> exists A, project_leftmult_matrix n r m = Ok A /\ mrows A = length B /\ mcols A = length B /\
  (forall i j bi bj, nth_error B i = Some bi -> nth_error B j = Some bj -> exists p, mor_mul_diag m bj = Ok p /\ has_coef p bi (ent (lint 0) A i j)) /\
  cell_matrix m r = Ok A.
Proof.
  intros Hr Hm Tm Bm EB. apply morphism_wf in Hm. assert (Sm : sqm n m) by (split; auto).
  destruct (cell_matrix_ok n r Hr B EB m Sm) as [A [EA [WA [RA [CA HA]]]]]. exists A.
  assert (Ent : forall i j bi bj, nth_error B i = Some bi -> nth_error B j = Some bj -> exists p, mor_mul_diag m bj = Ok p /\ has_coef p bi (ent (lint 0) A i j)).
  { intros i j bi bj Hi Hj. assert (Li : i < length B) by (apply nth_error_Some; congruence). assert (Lj : j < length B) by (apply nth_error_Some; congruence).
    destruct (HA i j Li Lj) as [_ [_ [p [Ep Hp]]]]. rewrite (nth_error_nth _ _ (did 0) Hi) in Hp. rewrite (nth_error_nth _ _ (did 0) Hj) in Ep. eauto. }
  assert (E : project_leftmult_matrix n r m = cell_matrix m r).
  { unfold project_leftmult_matrix, cell_matrix. rewrite Tm, Bm, Nat.eqb_refl. cbn [assert_ bind]. rewrite EB. cbn [bind].
    assert (Pd : 0 < length B) by exact (cell_pos n r Hr B EB).
    assert (K : forall l, (forall b, In b l -> In b B) -> exists cols, mapM (fun vj => p <- mor_mul_diag m vj ;; q <- mor_quotient p (n - 2 * r) ;; Ok (map (fun vi => match tget (moterms q) vi with Some c => c | None => L0 end) B)) l = Ok cols /\
      (prods <- mapM (fun b => mor_mul_diag m b) l ;; mapM (fun prod => q <- mor_quotient prod (n - 2 * r) ;; mapM (fun b => mor_coefficient q b) B) prods) = Ok cols /\ length cols = length l /\ Forall (fun c => length c = length B) cols).
    { induction l as [|b l IH]; intros H; cbn [mapM]; [exists []; cbn; auto|].
      assert (Hb : In b B) by (apply H; now left). pose proof (proj1 (B_spec n r Hr B EB b) Hb) as [Tb _].
      destruct (mul_diag_ok n r m b Sm Tb) as [p [Ep [Wp [Tp [Bp _]]]]]. rewrite Ep. cbn [bind].
      destruct (C36_quotient p (n - 2 * r) (proj2 (morphism_wf p) Wp)) as [q [Eq [_ [Tq [Bq _]]]]]. rewrite Eq. cbn [bind].
      destruct (IH ltac:(intros; apply H; now right)) as [cols [-> [E2 [L F]]]]. cbn [bind]. destruct (mapM (fun b => mor_mul_diag m b) l) as [prods|]; [|discriminate]. cbn [bind mapM] in E2 |- *.
      rewrite Eq. cbn [bind].
      assert (Kq : mapM (fun b => mor_coefficient q b) B = Ok (map (fun vi => match tget (moterms q) vi with Some c => c | None => L0 end) B)).
      { assert (Ty : forall x, In x B -> dtop x = motop q /\ dbot x = mobot q) by (intros x Hx; apply (B_spec n r Hr B EB) in Hx; destruct Hx as [[_ [X1 X2]] _]; rewrite Tq, Bq; split; congruence).
        clear - Ty. induction B as [|x l IH]; [reflexivity|]. cbn [mapM map]. destruct (Ty x (or_introl eq_refl)) as [X1 X2]. unfold mor_coefficient at 1. rewrite X1, X2, !Nat.eqb_refl. cbn [andb negb bind].
        rewrite IH by (intros; apply Ty; now right). reflexivity. }
      rewrite Kq. cbn [bind]. rewrite E2. cbn [bind]. eexists. split; [reflexivity|]. split; [reflexivity|]. split; [cbn [length]; lia|]. constructor; [now rewrite map_length|exact F]. }
    destruct (K B ltac:(auto)) as [cols [-> [E2 [L F]]]]. cbn [bind]. destruct (mapM (fun b => mor_mul_diag m b) B) as [prods|]; [|discriminate]. cbn [bind] in E2 |- *. rewrite E2. cbn [bind].
    f_equal. unfold zip_star. destruct cols as [|c cols]; [cbn [length] in L; lia|]. inversion F; subst. now rewrite H1. }
  rewrite E. split; [exact EA|]. split; [exact RA|]. split; [exact CA|]. split; [exact Ent|exact EA].
Qed.
Example C90_nontrivial : (exists B x A, cell_basis 4 1 = Ok B /\ length B = 3 /\ mor_e 1 4 = Ok x /\ project_leftmult_matrix 4 1 x = Ok A) /\
  (exists ms, mor_basis 2 2 = Ok ms /\ length ms = 2) /\ (exists d m, of_type 4 2 d /\ mor_of_diag d = Ok m).
Proof.
  split; [do 3 eexists; split; [vm_compute; reflexivity|]; split; [reflexivity|]; split; vm_compute; reflexivity|]. split; [eexists; split; vm_compute; reflexivity|].
  exists (mkD 4 2 [3; 2; 1; 0; 5; 4]). eexists. split; [|vm_compute; reflexivity]. split; [split; [apply is_cm_Ok; vm_compute; reflexivity|reflexivity]|auto].
Qed.
