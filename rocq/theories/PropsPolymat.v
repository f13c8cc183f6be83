(** PropsPolymat.v – theorems for C64-C68: arrays of polynomial matrices. *)
From Verif Require Import Base ModelPoly SpecPoly ModelMatrix ModelPolymat SpecPolymat PolymatTheory.
Local Open Scope nat_scope.

(** ** C64: mul *)
Lemma mul_unfold A B q prefix : aJ A = aI B -> broadcast_shapes (apre A) (apre B) = Ok prefix ->
  match q with None => 1 <= aD A + aD B | Some z => (0 <= z)%Z end ->
  mul A B q = Ok (ptab prefix (aI A) (aJ B) (match q with None => aD A + aD B - 1 | Some z => Z.to_nat z end) (adt A)
    (fun idx i k d => wrap (adt A) (mul_entry (promote (adt A) (adt B)) (aJ A) (aD A) (aJ B) (aD B) (block A (bidx (apre A) idx)) (block B (bidx (apre B) idx)) i k d))).
Proof.
  intros EJ EP H. unfold mul. rewrite (proj2 (Nat.eqb_eq _ _) EJ). cbn [assert_ bind]. destruct q as [z|].
  - rewrite (proj2 (Z.leb_le _ _) H). cbn [assert_ bind]. rewrite EP. cbn [bind]. destruct (Z.ltb_spec z 0); [lia|]. reflexivity.
  - cbn [assert_ bind]. rewrite EP. cbn [bind]. destruct (Z.ltb_spec (Z.of_nat (aD A) + Z.of_nat (aD B) - 1) 0); [lia|].
    replace (Z.to_nat (Z.of_nat (aD A) + Z.of_nat (aD B) - 1)) with (aD A + aD B - 1) by lia. reflexivity.
Qed.
Lemma mul_entry_coef A B ia ib i k d : wfa A -> wfa B -> aJ A = aI B -> valid_index (apre A) ia -> valid_index (apre B) ib -> i < aI A -> k < aJ B ->
  wrap (adt A) (mul_entry (promote (adt A) (adt B)) (aJ A) (aD A) (aJ B) (aD B) (block A ia) (block B ib) i k d) = wrap (adt A) (prod_coef (aJ A) (acoef A ia) (acoef B ib) i k d).
Proof.
  intros WA WB EJ Va Vb Hi Hk. rewrite <- (wrap_wrap_le (adt A) (promote (adt A) (adt B))) by apply dle_promote. rewrite mul_entry_wrap. rewrite wrap_wrap_le by apply dle_promote. f_equal.
  unfold prod_coef. apply zsum_ext. intros j Hj. apply (zsum_ext (S d)). intros e He. rewrite !coef_block by (auto; congruence). reflexivity.
Qed.
Lemma prod_coef_zero A B ia ib i k d : aD A + aD B - 1 <= d -> prod_coef (aJ A) (acoef A ia) (acoef B ib) i k d = 0%Z.
Proof.
  intros H. unfold prod_coef. apply zsum_0. intros j _. apply (zsum_0 (S d)). intros e He. unfold acoef.
  destruct (Nat.ltb_spec e (aD A)); [|lia]. destruct (Nat.ltb_spec (d - e) (aD B)); [lia|]. lia.
Qed.

(** [mul(A, B)] succeeds on compatible shapes; its batch shape is the broadcast
    shape; every coefficient is that of the product of the two matrices, modulo
    2^32 or 2^64 according to the dtype of A *)
Theorem C64_mul A B : wfa A -> wfa B -> aJ A = aI B -> compatible (apre A) (apre B) -> 1 <= aD A + aD B ->
  exists C, mul A B None = Ok C /\ wfa C /\
    broadcasts (apre A) (apre B) (apre C) /\ aI C = aI A /\ aJ C = aJ B /\ aD C = aD A + aD B - 1 /\ adt C = adt A /\
    forall idx i k d, valid_index (apre C) idx -> i < aI C -> k < aJ C ->
      (2 ^ dbits (adt A) | acoef C idx i k d - prod_coef (aJ A) (acoef A (operand_index (apre A) idx)) (acoef B (operand_index (apre B) idx)) i k d)%Z.
Proof.
  intros WA WB EJ HC HD. pose proof (broadcast_shapes_spec (apre A) (apre B)) as S. destruct (broadcast_shapes (apre A) (apre B)) as [c|e] eqn:EP; [|destruct S as [_ S]; contradiction].
  eexists. split; [apply (mul_unfold A B None c EJ EP HD)|]. split; [apply ptab_wf; intros; apply wrap_range|]. cbn [ptab apre aI aJ aD adt]. repeat (split; [try exact S; reflexivity|]).
  intros idx i k d V Hi Hk. 
  match goal with |- (_ | acoef ?X _ _ _ _ - _)%Z => change X with (ptab c (aI A) (aJ B) (aD A + aD B - 1) (adt A) (fun idx i k d => wrap (adt A) (mul_entry (promote (adt A) (adt B)) (aJ A) (aD A) (aJ B) (aD B) (block A (bidx (apre A) idx)) (block B (bidx (apre B) idx)) i k d))) end.
  rewrite ptab_coef by (intros; try apply wrap_range; auto).
  destruct (broadcasts_valid _ _ _ _ S V) as [Va Ea]. destruct (broadcasts_valid _ _ _ _ (broadcasts_sym _ _ _ S) V) as [Vb Eb].
  destruct (Nat.ltb_spec d (aD A + aD B - 1)) as [Hd|Hd].
  - rewrite mul_entry_coef by auto. rewrite Ea, Eb. apply wrap_diff.
  - rewrite prod_coef_zero by exact Hd. exists 0%Z. reflexivity.
Qed.
(** if the true coefficients fit the dtype the product is exact *)
Theorem C64_mul_exact A B C : wfa A -> wfa B -> mul A B None = Ok C ->
  (forall idx i k d, valid_index (apre C) idx -> i < aI C -> k < aJ C -> in_dtype (adt A) (prod_coef (aJ A) (acoef A (operand_index (apre A) idx)) (acoef B (operand_index (apre B) idx)) i k d)) ->
  forall idx i k d, valid_index (apre C) idx -> i < aI C -> k < aJ C ->
    acoef C idx i k d = prod_coef (aJ A) (acoef A (operand_index (apre A) idx)) (acoef B (operand_index (apre B) idx)) i k d.
Proof.
  intros WA WB E H idx i k d V Hi Hk.
  assert (EJ : aJ A = aI B). { unfold mul in E. destruct (Nat.eqb_spec (aJ A) (aI B)); [assumption|discriminate]. }
  pose proof (broadcast_shapes_spec (apre A) (apre B)) as S. destruct (broadcast_shapes (apre A) (apre B)) as [c|e] eqn:EP.
  2:{ unfold mul in E. rewrite (proj2 (Nat.eqb_eq _ _) EJ), EP in E. discriminate. }
  assert (HD : 1 <= aD A + aD B). { unfold mul in E. rewrite (proj2 (Nat.eqb_eq _ _) EJ), EP in E. cbn [assert_ bind] in E. destruct (Z.ltb_spec (Z.of_nat (aD A) + Z.of_nat (aD B) - 1) 0); [discriminate|lia]. }
  assert (HC : compatible (apre A) (apre B)) by apply S.
  destruct (C64_mul A B WA WB EJ HC HD) as [C' [E' [W' [B' [I' [J' [D' [T' K]]]]]]]]. assert (C' = C) by congruence. subst C'.
  specialize (H idx i k d V Hi Hk). specialize (K idx i k d V Hi Hk).
  assert (R : in_dtype (adt A) (acoef C idx i k d)).
  { rewrite coef_block by auto. destruct (Nat.ltb_spec d (aD C)); [|unfold in_dtype; destruct (adt A); cbn; lia]. destruct (wfa_block C idx W' V) as [L F]. rewrite <- T'. now apply (Forall_bget _ (aI C) (aJ C) (aD C)). }
  rewrite <- (wrap_id _ _ R), <- (wrap_id _ _ H). now apply wrap_congr.
Qed.
(** with quotdeg the product is truncated: degrees below it as above, nothing above *)
Theorem C64_quotdeg A B q : wfa A -> wfa B -> aJ A = aI B -> compatible (apre A) (apre B) -> (0 <= q)%Z ->
  exists C, mul A B (Some q) = Ok C /\ wfa C /\
    broadcasts (apre A) (apre B) (apre C) /\ aI C = aI A /\ aJ C = aJ B /\ aD C = Z.to_nat q /\ adt C = adt A /\
    forall idx i k d, valid_index (apre C) idx -> i < aI C -> k < aJ C ->
      ((Z.of_nat d < q)%Z -> (2 ^ dbits (adt A) | acoef C idx i k d - prod_coef (aJ A) (acoef A (operand_index (apre A) idx)) (acoef B (operand_index (apre B) idx)) i k d)%Z) /\
      ((q <= Z.of_nat d)%Z -> acoef C idx i k d = 0%Z).
Proof.
  intros WA WB EJ HC HD. pose proof (broadcast_shapes_spec (apre A) (apre B)) as S. destruct (broadcast_shapes (apre A) (apre B)) as [c|e] eqn:EP; [|destruct S as [_ S]; contradiction].
  eexists. split; [apply (mul_unfold A B (Some q) c EJ EP HD)|]. split; [apply ptab_wf; intros; apply wrap_range|]. cbn [ptab apre aI aJ aD adt]. repeat (split; [try exact S; reflexivity|]).
  intros idx i k d V Hi Hk.
  match goal with |- context [acoef ?X _ _ _ _] => change X with (ptab c (aI A) (aJ B) (Z.to_nat q) (adt A) (fun idx i k d => wrap (adt A) (mul_entry (promote (adt A) (adt B)) (aJ A) (aD A) (aJ B) (aD B) (block A (bidx (apre A) idx)) (block B (bidx (apre B) idx)) i k d))) end.
  rewrite ptab_coef by (intros; try apply wrap_range; auto).
  destruct (broadcasts_valid _ _ _ _ S V) as [Va Ea]. destruct (broadcasts_valid _ _ _ _ (broadcasts_sym _ _ _ S) V) as [Vb Eb].
  destruct (Nat.ltb_spec d (Z.to_nat q)) as [Hd|Hd]; (split; [intros Hq|intros Hq]; try lia).
  rewrite mul_entry_coef by auto. rewrite Ea, Eb. apply wrap_diff.
Qed.
(** exactly when it raises *)
Theorem C64_errors A B q :
  (aJ A <> aI B -> mul A B q = Err AssertionError) /\
  (aJ A = aI B -> (exists z, q = Some z /\ (z < 0)%Z) -> mul A B q = Err AssertionError) /\
  (aJ A = aI B -> (forall z, q = Some z -> (0 <= z)%Z) -> ~ compatible (apre A) (apre B) -> mul A B q = Err ValueError) /\
  (aJ A = aI B -> compatible (apre A) (apre B) -> aD A = 0 -> aD B = 0 -> mul A B None = Err ValueError).
Proof.
  unfold mul. repeat apply conj.
  - intros H. destruct (Nat.eqb_spec (aJ A) (aI B)); [contradiction|reflexivity].
  - intros E [z [-> Hz]]. rewrite (proj2 (Nat.eqb_eq _ _) E). cbn [assert_ bind]. destruct (Z.leb_spec 0 z); [lia|reflexivity].
  - intros E Hq HC. rewrite (proj2 (Nat.eqb_eq _ _) E). cbn [assert_ bind]. pose proof (broadcast_shapes_spec (apre A) (apre B)) as S. destruct (broadcast_shapes (apre A) (apre B)) as [c|e]; [destruct S; contradiction|]. destruct S as [-> _].
    destruct q as [z|]; cbn [bind assert_]; [|reflexivity]. rewrite (proj2 (Z.leb_le _ _) (Hq z eq_refl)). reflexivity.
  - intros E HC H1 H2. rewrite (proj2 (Nat.eqb_eq _ _) E). cbn [assert_ bind]. pose proof (broadcast_shapes_spec (apre A) (apre B)) as S. destruct (broadcast_shapes (apre A) (apre B)) as [c|e]; [|destruct S; contradiction]. rewrite H1, H2. reflexivity.
Qed.

(** ** C65: projectivise *)

(** no matrix of the batch is zero *)
Definition all_nonzero (A : parr) : Prop := forall idx, valid_index (apre A) idx -> nonzero_poly (acoef A idx) (aI A) (aJ A).

(** each matrix is divided by v^d with d its least degree; so its constant term is
    non-zero; the degree bound is not larger than needed *)
Theorem C65_projectivise A : wfa A -> 1 <= nitems (apre A) -> all_nonzero A ->
  exists P, projectivise A = Ok P /\ wfa P /\ apre P = apre A /\ aI P = aI A /\ aJ P = aJ A /\ adt P = adt A /\
    (forall idx, valid_index (apre A) idx -> exists d,
       least_degree (acoef A idx) (aI A) (aJ A) d /\
       same_poly (acoef A idx) (shift d (acoef P idx)) (aI A) (aJ A) /\
       least_degree (acoef P idx) (aI A) (aJ A) 0) /\
    (exists idx, valid_index (apre A) idx /\ greatest_degree (acoef P idx) (aI A) (aJ A) (aD P - 1)).
Proof.
  intros W NE N. destruct (projectivise_spec A W NE N) as [P [E [WP [E1 [E2 [E3 [E4 [C [T HD]]]]]]]]]. exists P. repeat (split; [assumption|]). split.
  - intros idx V. destruct (lo_least A idx W V (N idx V)) as [[[i0 [j0 [Hi0 [Hj0 K0]]]] Z0] _]. exists (lo A (block A idx)). split; [split; [exists i0, j0; auto|exact Z0]|]. split.
    + intros i j d Hi Hj. unfold shift. destruct (Nat.ltb_spec d (lo A (block A idx))) as [K|K]; [now apply Z0|]. rewrite C by auto. f_equal. lia.
    + split; [|intros; lia]. exists i0, j0. split; [exact Hi0|]. split; [exact Hj0|]. rewrite C by auto. now rewrite Nat.add_0_r.
  - destruct T as [idx [i [j [V [Hi [Hj K]]]]]]. exists idx. split; [exact V|]. split; [exists i, j; auto|]. intros i' j' e Hi' Hj' He. apply acoef_over. lia.
Qed.
(** a second application changes nothing *)
Theorem C65_idempotent A P : wfa A -> projectivise A = Ok P -> 1 <= nitems (apre A) -> projectivise P = Ok P.
Proof.
  intros W E NE. assert (N : all_nonzero A). { intros idx V. unfold projectivise in E. destruct (forallb bany (ablocks A)) eqn:F; [|discriminate]. rewrite (forallb_blocks A bany W) in F. apply bany_acoef; auto. }
  destruct (C65_projectivise A W NE N) as [P' [E' [WP [E1 [E2 [E3 [E4 [C T]]]]]]]]. assert (P' = P) by congruence. subst P'.
  assert (NP : all_nonzero P). { intros idx V. rewrite E1 in V. destruct (C idx V) as [d [_ [_ [[i [j [Hi [Hj K]]]] _]]]]. exists i, j, 0. rewrite E2, E3. auto. }
  rewrite projectivise_unfold; [|exact WP|now rewrite E1|exact NP]. replace (isproj P) with true; [reflexivity|]. symmetry. unfold isproj. apply andb_true_iff.
  assert (HD : aD P <> 0) by (apply nonempty_D; auto; now rewrite E1).
  split.
  - rewrite (forallb_blocks P (fun b => bnz (aI P) (aJ P) (aD P) b 0) WP). intros idx V. apply bnz_acoef; auto; [lia|]. rewrite E1 in V. destruct (C idx V) as [d [_ [_ [K _]]]]. now rewrite E2, E3.
  - apply any_deg_true; auto; [lia|]. destruct T as [idx [V [[i [j [Hi [Hj K]]]] _]]]. exists idx, i, j. rewrite E1, E2, E3. auto.
Qed.
(** two matrices have the same image exactly when they differ by a power of v *)
Theorem C65_complete A B : wfa A -> wfa B -> apre A = [] -> apre B = [] -> all_nonzero A -> all_nonzero B ->
  aI A = aI B -> aJ A = aJ B -> adt A = adt B ->
  projectivise A = projectivise B <->
  exists k, same_poly (acoef A []) (shift k (acoef B [])) (aI A) (aJ A) \/ same_poly (acoef B []) (shift k (acoef A [])) (aI A) (aJ A).
Proof.
  intros WA WB PA PB NA NB EI EJ ET. assert (SA : 1 <= nitems (apre A)) by (rewrite PA; cbn; lia). assert (SB : 1 <= nitems (apre B)) by (rewrite PB; cbn; lia).
  destruct (C65_projectivise A WA SA NA) as [P [EP [WP [P1 [P2 [P3 [P4 [CP TP]]]]]]]]. destruct (C65_projectivise B WB SB NB) as [Q [EQ [WQ [Q1 [Q2 [Q3 [Q4 [CQ TQ]]]]]]]]. rewrite EP, EQ.
  assert (VA : valid_index (apre A) []) by (rewrite PA; constructor). assert (VB : valid_index (apre B) []) by (rewrite PB; constructor).
  destruct (CP [] VA) as [a [La [Sa Pa]]]. destruct (CQ [] VB) as [b [Lb [Sb Pb]]]. rewrite <- EI, <- EJ in *.
  assert (ONE : forall idx, valid_index (apre A) idx -> idx = []) by (intros idx V; rewrite PA in V; inversion V; reflexivity).
  split.
  - intros [= <-]. destruct (Nat.le_ge_cases a b) as [H|H].
    + exists (b - a). right. intros i j d Hi Hj. rewrite Sb by auto. unfold shift. destruct (Nat.ltb_spec d b), (Nat.ltb_spec d (b - a)); try lia; auto.
      * rewrite Sa by auto. unfold shift. destruct (Nat.ltb_spec (d - (b - a)) a); [reflexivity|lia].
      * rewrite Sa by auto. unfold shift. destruct (Nat.ltb_spec (d - (b - a)) a); [lia|]. f_equal. lia.
    + exists (a - b). left. intros i j d Hi Hj. rewrite Sa by auto. unfold shift. destruct (Nat.ltb_spec d a), (Nat.ltb_spec d (a - b)); try lia; auto.
      * rewrite Sb by auto. unfold shift. destruct (Nat.ltb_spec (d - (a - b)) b); [reflexivity|lia].
      * rewrite Sb by auto. unfold shift. destruct (Nat.ltb_spec (d - (a - b)) b); [lia|]. f_equal. lia.
  - intros H. f_equal.
    assert (EC : forall i j d, i < aI A -> j < aJ A -> acoef P [] i j d = acoef Q [] i j d).
    { assert (GEN : forall X Y x y Px Py k, least_degree X (aI A) (aJ A) x -> least_degree Y (aI A) (aJ A) y -> same_poly X (shift x Px) (aI A) (aJ A) -> same_poly Y (shift y Py) (aI A) (aJ A) -> same_poly X (shift k Y) (aI A) (aJ A) -> forall i j d, i < aI A -> j < aJ A -> Px i j d = Py i j d).
      { intros X Y x y Px Py k LX LY SX SY SK.
        assert (x = k + y). { apply (least_unique X (aI A) (aJ A)); [exact LX|]. destruct LY as [[i [j [Hi [Hj K]]]] Zy]. split.
          - exists i, j. split; [exact Hi|]. split; [exact Hj|]. rewrite SK by auto. unfold shift. destruct (Nat.ltb_spec (k + y) k); [lia|]. replace (k + y - k) with y by lia. exact K.
          - intros i' j' e Hi' Hj' He. rewrite SK by auto. unfold shift. destruct (Nat.ltb_spec e k); [reflexivity|]. apply Zy; auto. lia. }
        intros i j d Hi Hj. pose proof (SX i j (x + d) Hi Hj) as E1. unfold shift in E1. destruct (Nat.ltb_spec (x + d) x); [lia|]. replace (x + d - x) with d in E1 by lia.
        pose proof (SY i j (y + d) Hi Hj) as E2. unfold shift in E2. destruct (Nat.ltb_spec (y + d) y); [lia|]. replace (y + d - y) with d in E2 by lia.
        rewrite <- E1, <- E2. rewrite SK by auto. unfold shift. destruct (Nat.ltb_spec (x + d) k); [lia|]. f_equal. lia. }
      destruct H as [k [H|H]].
      - exact (GEN _ _ _ _ _ _ k La Lb Sa Sb H).
      - intros i j d Hi Hj. symmetry. exact (GEN _ _ _ _ _ _ k Lb La Sb Sa H i j d Hi Hj). }
    destruct TP as [ip [Vp Tp]]. destruct TQ as [iq [Vq Tq]]. rewrite (ONE ip Vp) in Tp. rewrite PB in Vq. rewrite PA in ONE. rewrite (ONE iq Vq) in Tq.
    assert (HP : aD P <> 0) by (intros E0; destruct Tp as [[i [j [Hi [Hj K]]]] _]; rewrite E0 in K; rewrite acoef_over in K by lia; contradiction).
    assert (HQ : aD Q <> 0) by (intros E0; destruct Tq as [[i [j [Hi [Hj K]]]] _]; rewrite E0 in K; rewrite acoef_over in K by lia; contradiction).
    assert (ED : aD P - 1 = aD Q - 1).
    { apply (greatest_unique (acoef Q []) (aI A) (aJ A)); [|exact Tq]. destruct Tp as [[i [j [Hi [Hj K]]]] Z]. split; [exists i, j; rewrite <- EC by auto; auto|]. intros i' j' e Hi' Hj' He. rewrite <- EC by auto. now apply Z. }
    apply arr_ext; auto; try congruence; [lia|]. intros idx i j d V Hi Hj Hd. rewrite P1, PA in V. rewrite (ONE idx V). apply EC; congruence.
Qed.
(** exactly when it raises: a zero matrix in the batch, or an empty batch *)
Theorem C65_errors A : wfa A ->
  (~ all_nonzero A -> projectivise A = Err AssertionError) /\
  (nitems (apre A) = 0 -> projectivise A = Err ValueError \/ projectivise A = Err IndexError).
Proof.
  intros W. split.
  - intros H. unfold projectivise. destruct (forallb bany (ablocks A)) eqn:F; [|reflexivity]. exfalso. apply H. rewrite (forallb_blocks A bany W) in F. intros idx V. apply bany_acoef; auto.
  - intros H. assert (EB : ablocks A = []) by (destruct W as [L _]; rewrite H in L; now apply length_zero_iff_nil). unfold projectivise. rewrite EB. cbn [forallb assert_ bind]. destruct (aD A =? 0) eqn:ED; [now right|]. left.
    unfold any_deg, proj_starts_ends, argmax_axis. rewrite EB, ED. reflexivity.
Qed.
(** trim and trim_left *)
Lemma slice_ptab A s e : wfa A -> slice_deg A s e = ptab (apre A) (aI A) (aJ A) (e - s) (adt A) (fun idx i j d => bget (aJ A) (aD A) (block A idx) i j (s + d)).
Proof. intros W. unfold slice_deg, ptab. now rewrite (map_blocks A (bslice (aI A) (aJ A) (aD A) s e) W). Qed.
Lemma slice_spec A s e : wfa A -> e <= aD A -> wfa (slice_deg A s e) /\ forall idx i j d, valid_index (apre A) idx -> i < aI A -> j < aJ A -> acoef (slice_deg A s e) idx i j d = if d <? e - s then acoef A idx i j (s + d) else 0%Z.
Proof.
  intros W He. rewrite slice_ptab by exact W. assert (R : forall idx i j d, valid_index (apre A) idx -> i < aI A -> j < aJ A -> d < e - s -> bget (aJ A) (aD A) (block A idx) i j (s + d) = acoef A idx i j (s + d)).
  { intros. rewrite coef_block by auto. destruct (Nat.ltb_spec (s + d) (aD A)); [reflexivity|lia]. }
  assert (R' : forall idx i j d, valid_index (apre A) idx -> i < aI A -> j < aJ A -> d < e - s -> in_dtype (adt A) (bget (aJ A) (aD A) (block A idx) i j (s + d))) by (intros; rewrite R by auto; now apply acoef_range).
  split; [apply ptab_wf; exact R'|]. intros. rewrite ptab_coef by auto. destruct (Nat.ltb_spec d (e - s)); [now apply R|reflexivity].
Qed.
Lemma any_deg_false A d idx i j : wfa A -> d < aD A -> any_deg A d = false -> valid_index (apre A) idx -> i < aI A -> j < aJ A -> acoef A idx i j d = 0%Z.
Proof.
  intros W Hd H V Hi Hj. destruct (Z.eq_dec (acoef A idx i j d) 0) as [|K]; [assumption|]. assert (any_deg A d = true) by (apply any_deg_true; eauto 8). congruence.
Qed.
Lemma trim_last_spec A : forall m, trim_last A m <= m /\ (forall d, trim_last A m <= d -> d < m -> any_deg A d = false) /\ (0 < trim_last A m -> any_deg A (trim_last A m - 1) = true).
Proof.
  induction m as [|m [H1 [H2 H3]]]; cbn [trim_last]; [split; [lia|split; lia]|]. destruct (any_deg A m) eqn:E.
  - split; [lia|]. split; [lia|]. intros _. now replace (S m - 1) with m by lia.
  - split; [lia|]. split; [|exact H3]. intros d K1 K2. destruct (Nat.eq_dec d m) as [->|]; [exact E|]. apply H2; lia.
Qed.
Lemma trim_start_spec A : forall fuel s, s + fuel = aD A -> (forall d, d < s -> any_deg A d = false) ->
  s <= trim_start A fuel s <= aD A /\ (forall d, d < trim_start A fuel s -> any_deg A d = false) /\ (trim_start A fuel s < aD A -> any_deg A (trim_start A fuel s) = true).
Proof.
  induction fuel as [|f IH]; intros s Hs Z; cbn [trim_start]; [split; [lia|]; split; [exact Z|lia]|]. destruct (any_deg A s) eqn:E.
  - split; [lia|]. split; [exact Z|auto].
  - destruct (IH (S s)) as [H1 [H2 H3]]; [lia|intros d Hd; destruct (Nat.eq_dec d s) as [->|]; [exact E|apply Z; lia]|]. split; [lia|auto].
Qed.
(** [trim] keeps every matrix and leaves no zero coefficient matrix at the top *)
Theorem C65_trim A : wfa A ->
  let T := trim A in wfa T /\ apre T = apre A /\ aI T = aI A /\ aJ T = aJ A /\ adt T = adt A /\ aD T <= aD A /\
    (forall idx, valid_index (apre A) idx -> same_poly (acoef T idx) (acoef A idx) (aI A) (aJ A)) /\
    (aD T <> 0 -> exists idx i j, valid_index (apre A) idx /\ i < aI A /\ j < aJ A /\ acoef A idx i j (aD T - 1) <> 0%Z).
Proof.
  intros W T. destruct (trim_last_spec A (aD A)) as [H1 [H2 H3]]. unfold T, trim. clear T. destruct (Nat.ltb_spec (trim_last A (aD A)) (aD A)) as [K|K].
  - destruct (slice_spec A 0 (trim_last A (aD A)) W ltac:(lia)) as [WS CS]. split; [exact WS|]. cbn [slice_deg apre aI aJ aD adt]. repeat (split; [reflexivity|]). split; [lia|]. split.
    + intros idx V i j d Hi Hj. rewrite CS by auto. cbn [Nat.add]. destruct (Nat.ltb_spec d (trim_last A (aD A) - 0)) as [L|L]; [reflexivity|]. symmetry. destruct (Nat.lt_ge_cases d (aD A)); [|now apply acoef_over]. apply any_deg_false; auto. apply H2; lia.
    + rewrite Nat.sub_0_r. intros N. apply any_deg_true; auto; [lia|]. apply H3. lia.
  - split; [exact W|]. repeat (split; [reflexivity|]). split; [intros idx V i j d Hi Hj; reflexivity|]. intros N. apply any_deg_true; auto; [lia|]. replace (aD A - 1) with (trim_last A (aD A) - 1) by lia. apply H3. lia.
Qed.
(** [trim_left] returns the least degree d of the whole batch and A divided by v^d *)
Theorem C65_trim_left A : wfa A ->
  let '(d, T) := trim_left_deg A in wfa T /\ apre T = apre A /\ aI T = aI A /\ aJ T = aJ A /\ adt T = adt A /\ aD T = aD A - d /\
    (forall idx, valid_index (apre A) idx -> same_poly (acoef A idx) (shift d (acoef T idx)) (aI A) (aJ A)) /\
    (d < aD A -> exists idx i j, valid_index (apre A) idx /\ i < aI A /\ j < aJ A /\ acoef A idx i j d <> 0%Z).
Proof.
  intros W. unfold trim_left_deg. destruct (trim_start_spec A (aD A) 0 ltac:(lia) ltac:(lia)) as [H1 [H2 H3]]. set (s := trim_start A (aD A) 0) in *.
  destruct (Nat.eqb_spec s 0) as [E|E]; cbn [negb].
  - rewrite E in *. split; [exact W|]. repeat (split; [reflexivity|]). split; [lia|]. split; [intros idx V i j d Hi Hj; unfold shift; cbn; now rewrite Nat.sub_0_r|]. intros K. apply any_deg_true; auto.
  - destruct (slice_spec A s (aD A) W ltac:(lia)) as [WS CS]. split; [exact WS|]. cbn [slice_deg apre aI aJ aD adt]. repeat (split; [reflexivity|]). split.
    + intros idx V i j d Hi Hj. unfold shift. destruct (Nat.ltb_spec d s) as [L|L].
      * apply any_deg_false; auto; lia.
      * rewrite CS by auto. destruct (Nat.ltb_spec (d - s) (aD A - s)); [f_equal; lia|]. apply acoef_over. lia.
    + intros K. apply any_deg_true; auto.
Qed.

(** ** C66: degmax, valmin, projlen, efflen *)
Lemma nth_map_blocks {B} A (f : list Z -> B) idx d : wfa A -> valid_index (apre A) idx -> nth (cpos (apre A) idx) (map f (ablocks A)) d = f (block A idx).
Proof. intros W V. rewrite (map_blocks A f W), cpos_ravel by now apply valid_length. now apply (nth_map_indices (fun idx => f (block A idx))). Qed.
Lemma len_map_blocks {B} A (f : list Z -> B) : wfa A -> length (map f (ablocks A)) = nitems (apre A).
Proof. intros W. rewrite map_length. apply W. Qed.
Lemma degmax_eq A : aD A <> 0 -> degmax A = Ok (map (fun b => Z.of_nat (hi A b) - 1)%Z (ablocks A)).
Proof.
  intros H. unfold degmax, argmax_axis. rewrite (proj2 (Nat.eqb_neq _ _) H). cbn [bind]. rewrite map_map. f_equal. apply map_ext. intros b. unfold hi.
  assert (argmax (rev (nonzeros A b)) <= aD A). { rewrite argmax_go. destruct (go_spec (rev (nonzeros A b)) 0) as [[k [Hk [_ [G _]]]]|[G _]]; rewrite G; [|lia]. rewrite rev_length, nonzeros_length in Hk. lia. }
  lia.
Qed.
Lemma valmin_eq A : aD A <> 0 -> valmin A = Ok (map (fun b => Z.of_nat (lo A b)) (ablocks A)).
Proof. intros H. unfold valmin, argmax_axis. rewrite (proj2 (Nat.eqb_neq _ _) H). cbn [bind]. now rewrite map_map. Qed.
Lemma projlen_eq A : aD A <> 0 -> projlen A = Ok (map (fun b => Z.of_nat (hi A b) - Z.of_nat (lo A b))%Z (ablocks A)).
Proof.
  intros H. unfold projlen, argmax_axis. rewrite (proj2 (Nat.eqb_neq _ _) H). cbn [bind]. rewrite combine_map2, map_map. f_equal. apply map_ext. intros b. unfold hi, lo.
  assert (argmax (rev (nonzeros A b)) <= aD A). { rewrite argmax_go. destruct (go_spec (rev (nonzeros A b)) 0) as [[k [Hk [_ [G _]]]]|[G _]]; rewrite G; [|lia]. rewrite rev_length, nonzeros_length in Hk. lia. }
  lia.
Qed.
Lemma efflen_eq A : aD A <> 0 -> efflen A = Ok (map (fun b => if bany b then Z.of_nat (hi A b) - 1 - Z.of_nat (lo A b) else 0)%Z (ablocks A)).
Proof. intros H. unfold efflen. rewrite degmax_eq, valmin_eq by exact H. cbn [bind]. rewrite combine_map2, combine_self_map, map_map. reflexivity. Qed.
(** on every nonzero matrix of the batch, with u its least and w its greatest
    degree: valmin = u, degmax = w, projlen = w - u + 1, efflen = w - u *)
Theorem C66_nonzero A : wfa A -> 1 <= aD A -> exists dm vm pl el,
  degmax A = Ok dm /\ valmin A = Ok vm /\ projlen A = Ok pl /\ efflen A = Ok el /\
  length dm = nitems (apre A) /\ length vm = nitems (apre A) /\ length pl = nitems (apre A) /\ length el = nitems (apre A) /\
  forall idx u w, valid_index (apre A) idx -> least_degree (acoef A idx) (aI A) (aJ A) u -> greatest_degree (acoef A idx) (aI A) (aJ A) w ->
    nth (cpos (apre A) idx) dm 0%Z = Z.of_nat w /\ nth (cpos (apre A) idx) vm 0%Z = Z.of_nat u /\
    nth (cpos (apre A) idx) pl 0%Z = (Z.of_nat w - Z.of_nat u + 1)%Z /\ nth (cpos (apre A) idx) el 0%Z = (Z.of_nat w - Z.of_nat u)%Z.
Proof.
  intros W HD. assert (H0 : aD A <> 0) by lia. do 4 eexists. split; [now apply degmax_eq|]. split; [now apply valmin_eq|]. split; [now apply projlen_eq|]. split; [now apply efflen_eq|].
  rewrite !len_map_blocks by exact W. repeat (split; [reflexivity|]). intros idx u w V Lu Gw. rewrite !nth_map_blocks by auto.
  assert (N : nonzero_poly (acoef A idx) (aI A) (aJ A)) by (destruct Lu as [[i [j [Hi [Hj K]]]] _]; exists i, j, u; auto).
  destruct (lo_least A idx W V N) as [Ll [Gh [H1 H2]]]. rewrite (least_unique _ _ _ _ _ Lu Ll), (greatest_unique _ _ _ _ _ Gw Gh). rewrite (proj2 (bany_acoef A idx W V) N). repeat apply conj; lia.
Qed.
(** on a zero matrix projlen is the size D of the degree axis, not 0 as its
    documentation says; efflen is 0 *)
Theorem C66_zero A idx : wfa A -> 1 <= aD A -> valid_index (apre A) idx -> ~ nonzero_poly (acoef A idx) (aI A) (aJ A) ->
  exists pl el, projlen A = Ok pl /\ efflen A = Ok el /\ nth (cpos (apre A) idx) pl 0%Z = Z.of_nat (aD A) /\ nth (cpos (apre A) idx) el 0%Z = 0%Z.
Proof.
  intros W HD V N. assert (H0 : aD A <> 0) by lia. do 2 eexists. split; [now apply projlen_eq|]. split; [now apply efflen_eq|]. rewrite !nth_map_blocks by auto.
  assert (B : bany (block A idx) = false) by (destruct (bany (block A idx)) eqn:E; [|reflexivity]; apply bany_acoef in E; auto; contradiction). rewrite B.
  destruct (wfa_block A idx W V) as [L _]. destruct (lo_hi_zero A _ L B) as [-> ->]. split; [lia|reflexivity].
Qed.
Theorem C66_projlen_zero_refuted : exists A pl, wfa A /\ apre A = [] /\ ~ nonzero_poly (acoef A []) (aI A) (aJ A) /\ projlen A = Ok pl /\ nth 0 pl 0%Z = 1%Z.
Proof.
  exists (mkA [] 1 1 1 I64 [[0%Z]]), [1%Z]. split; [|split; [reflexivity|split; [|split; reflexivity]]].
  - split; [reflexivity|]. split; repeat constructor; cbn; lia.
  - intros [i [j [d [Hi [Hj K]]]]]. cbn [aI aJ] in *. replace i with 0 in K by lia. replace j with 0 in K by lia. destruct d; cbn in K; contradiction.
Qed.
(** multiplying by a power of v, or padding with zeros, does not change projlen *)
Theorem C66_invariant A B idx : wfa A -> wfa B -> 1 <= aD A -> 1 <= aD B -> apre A = apre B -> aI A = aI B -> aJ A = aJ B -> valid_index (apre A) idx ->
  nonzero_poly (acoef A idx) (aI A) (aJ A) -> (exists k, same_poly (acoef B idx) (shift k (acoef A idx)) (aI A) (aJ A)) ->
  exists pa pb, projlen A = Ok pa /\ projlen B = Ok pb /\ nth (cpos (apre A) idx) pa 0%Z = nth (cpos (apre B) idx) pb 0%Z.
Proof.
  intros WA WB HA HB EP EI EJ V N [k S]. destruct (lo_least A idx WA V N) as [Ll [Gh [H1 H2]]]. set (u := lo A (block A idx)) in *. set (w := hi A (block A idx) - 1) in *.
  assert (LB : least_degree (acoef B idx) (aI B) (aJ B) (k + u)).
  { rewrite <- EI, <- EJ. destruct Ll as [[i [j [Hi [Hj K]]]] Z]. split.
    - exists i, j. split; [exact Hi|]. split; [exact Hj|]. rewrite S by auto. unfold shift. destruct (Nat.ltb_spec (k + u) k); [lia|]. now replace (k + u - k) with u by lia.
    - intros i' j' e Hi' Hj' He. rewrite S by auto. unfold shift. destruct (Nat.ltb_spec e k); [reflexivity|]. apply Z; auto; lia. }
  assert (GB : greatest_degree (acoef B idx) (aI B) (aJ B) (k + w)).
  { rewrite <- EI, <- EJ. destruct Gh as [[i [j [Hi [Hj K]]]] Z]. split.
    - exists i, j. split; [exact Hi|]. split; [exact Hj|]. rewrite S by auto. unfold shift. destruct (Nat.ltb_spec (k + w) k); [lia|]. now replace (k + w - k) with w by lia.
    - intros i' j' e Hi' Hj' He. rewrite S by auto. unfold shift. destruct (Nat.ltb_spec e k); [reflexivity|]. apply Z; auto; lia. }
  destruct (C66_nonzero A WA HA) as [? [? [pa [? [_ [_ [Ea [_ [_ [_ [_ [_ Ka]]]]]]]]]]]]. destruct (C66_nonzero B WB HB) as [? [? [pb [? [_ [_ [Eb [_ [_ [_ [_ [_ Kb]]]]]]]]]]]].
  exists pa, pb. split; [exact Ea|]. split; [exact Eb|]. destruct (Ka idx u w V Ll Gh) as [_ [_ [-> _]]]. rewrite EP in V. destruct (Kb idx _ _ V LB GB) as [_ [_ [-> _]]]. lia.
Qed.
Theorem C66_empty_degree A : aD A = 0 -> projlen A = Err ValueError /\ degmax A = Err ValueError /\ valmin A = Err ValueError /\ efflen A = Err ValueError.
Proof. intros H. unfold projlen, degmax, valmin, efflen, degmax, argmax_axis. rewrite H. repeat split. Qed.
(** nz_terms counts the non-zero coefficients *)
Theorem C66_nz_terms A idx : wfa A -> valid_index (apre A) idx -> length (nz_terms A) = nitems (apre A) /\
  nth (cpos (apre A) idx) (nz_terms A) 0 = length (filter (fun '(i, j, d) => negb (acoef A idx i j d =? 0)%Z) (list_prod (list_prod (seq 0 (aI A)) (seq 0 (aJ A))) (seq 0 (aD A)))).
Proof.
  intros W V. unfold nz_terms. rewrite len_map_blocks by exact W. split; [reflexivity|]. rewrite nth_map_blocks by auto. destruct (wfa_block A idx W V) as [L _].
  rewrite <- (btab_bget (aI A) (aJ A) (aD A) (block A idx) L) at 1. unfold btab.
  assert (EQ : forall (g : nat -> nat -> nat -> Z), flat_map (fun i => flat_map (fun j => map (fun d => g i j d) (seq 0 (aD A))) (seq 0 (aJ A))) (seq 0 (aI A)) = map (fun '(i, j, d) => g i j d) (list_prod (list_prod (seq 0 (aI A)) (seq 0 (aJ A))) (seq 0 (aD A)))).
  { intros g. generalize (seq 0 (aI A)) as la. intros la. induction la as [|i la IH]; [reflexivity|]. cbn [flat_map list_prod].
    assert (AP : forall (x y : list (nat * nat)) (z : list nat), list_prod (x ++ y) z = list_prod x z ++ list_prod y z) by (intros x y z; induction x as [|a x IHx]; cbn [list_prod app]; [reflexivity|]; now rewrite IHx, app_assoc).
    rewrite AP, map_app, <- IH. f_equal. clear IH. generalize (seq 0 (aJ A)) as lb. induction lb as [|j lb IH]; [reflexivity|]. cbn [flat_map map list_prod]. rewrite map_app, IH. f_equal. now rewrite map_map. }
  rewrite EQ. assert (FL : forall (f : nat * nat * nat -> Z) l, length (filter (fun x => negb (x =? 0)%Z) (map f l)) = length (filter (fun t => negb (f t =? 0)%Z) l)).
  { intros f l. induction l as [|t l IH]; [reflexivity|]. cbn [map filter]. destruct (f t =? 0)%Z; cbn [negb length]; [exact IH|now rewrite IH]. }
  rewrite FL. f_equal. apply filter_ext_in. intros [[i j] d] Hin. apply in_prod_iff in Hin. destruct Hin as [Hin Hd%in_seq]. apply in_prod_iff in Hin. destruct Hin as [Hi%in_seq Hj%in_seq]. rewrite coef_block by (auto; lia). destruct (Nat.ltb_spec d (aD A)); [reflexivity|lia].
Qed.
