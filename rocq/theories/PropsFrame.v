(** PropsFrame.v – C118: braids_images_to_dataframe. *)
From Coq Require Import QArith.
From Verif Require Import Base ModelPoly SpecPoly PolyTheory PropsPoly ModelMatrix SpecMatrix MatrixTheory NumTheory ModelPolymat SpecPolymat PolymatTheory PropsPolymat PropsPolymat2 PropsPolymat3.
From Verif Require Import ModelPerm ModelBraid ModelTL ModelTLMor ModelRep ModelPolyRep NFApi PermGerm PermTable PropsGNF PropsGNF2 PropsPolyRep2 PropsJS ModelTools PropsLists ModelFrame.
Local Open Scope nat_scope.

(** the row says the truth about its braid and its image: its length is the number of
    canonical factors, nz_terms is the number of non-zero coefficients, and if u and w are
    the least and greatest degree of the image then valmin = u, degmax = w, rhogap =
    (w - u)/2 and the last column is rhogap/length *)
Definition row_true (row : frow) : Prop :=
  let a := acoef (fr_image row) [] in let I := aI (fr_image row) in let J := aJ (fr_image row) in
  fr_length row = length (o_factors (fr_braid row)) /\
  fr_nz_terms row = length (filter (fun '(i, j, d) => negb (a i j d =? 0)%Z) (list_prod (list_prod (seq 0 I) (seq 0 J)) (seq 0 (aD (fr_image row))))) /\
  (forall u w, least_degree a I J u -> greatest_degree a I J w ->
     fr_valmin row = Z.of_nat u /\ fr_degmax row = Z.of_nat w /\ (fr_rhogap row == (Z.of_nat w - Z.of_nat u # 2))%Q) /\
  match fr_ratio row with
  | Some q => fr_length row <> 0 /\ (q * inject_Z (Z.of_nat (fr_length row)) == fr_rhogap row)%Q
  | None => fr_length row = 0
  end.

Lemma item_stats (l : list parr) (W : forall a, In a l -> wfa a /\ apre a = [] /\ 1 <= aD a) a : In a l -> exists b, ablocks a = [b] /\ degmax a = Ok [(Z.of_nat (hi a b) - 1)%Z] /\ valmin a = Ok [Z.of_nat (lo a b)] /\
  rhogap a = Ok [(inject_Z (Z.of_nat (hi a b) - 1 - Z.of_nat (lo a b)) / 2)%Q].
Proof.
  intros Ha. destruct (W a Ha) as ((W1 & W2) & P & D). rewrite P in W1. destruct (ablocks a) as [|b [|c t]] eqn:E; cbn in W1; try lia. exists b.
  assert (D0 : aD a <> 0) by lia. unfold rhogap. rewrite (degmax_eq a D0), (valmin_eq a D0), E. cbn. auto.
Qed.

Section Rows.
Variable braids : list nfobj.
Variable l : list parr.
Hypothesis L : length l = length braids.
Hypothesis W : forall a, In a l -> wfa a /\ apre a = [] /\ 1 <= aD a.

Lemma frame_rows : exists df,
  (nz <- mapM (fun a => one_value (nz_terms a)) l ;;
   dm <- mapM (fun a => d <- degmax a ;; one_value d) l ;;
   vm <- mapM (fun a => d <- valmin a ;; one_value d) l ;;
   rg <- mapM (fun a => d <- rhogap a ;; one_value d) l ;;
   Ok (map (fun '(((((b, a), n), z), (d, v)), x) =>
        mkRow b a n z d v x (if n =? 0 then None else Some (x / inject_Z (Z.of_nat n))%Q))
      (combine (combine (combine (combine (combine braids l) (map canonical_length braids)) nz) (combine dm vm)) rg))) = Ok df /\
  length df = length braids /\
  forall k b a row, nth_error braids k = Some b -> nth_error l k = Some a -> nth_error df k = Some row -> fr_braid row = b /\ fr_image row = a /\ row_true row.
Proof using All.
  set (B := fun a => nth 0 (ablocks a) []).
  assert (N : mapM (fun a => one_value (nz_terms a)) l = Ok (map (fun a => length (filter (fun x => negb (x =? 0)%Z) (B a))) l)).
  { apply mapM_ok. intros a Ha. destruct (item_stats l W a Ha) as (b & E & _). unfold nz_terms, B. now rewrite E. }
  assert (D : mapM (fun a => d <- degmax a ;; one_value d) l = Ok (map (fun a => Z.of_nat (hi a (B a)) - 1)%Z l)).
  { apply mapM_ok. intros a Ha. destruct (item_stats l W a Ha) as (b & E & D & _). rewrite D. unfold B. now rewrite E. }
  assert (V : mapM (fun a => d <- valmin a ;; one_value d) l = Ok (map (fun a => Z.of_nat (lo a (B a))) l)).
  { apply mapM_ok. intros a Ha. destruct (item_stats l W a Ha) as (b & E & _ & V & _). rewrite V. unfold B. now rewrite E. }
  assert (G : mapM (fun a => d <- rhogap a ;; one_value d) l = Ok (map (fun a => (inject_Z (Z.of_nat (hi a (B a)) - 1 - Z.of_nat (lo a (B a))) / 2)%Q) l)).
  { apply mapM_ok. intros a Ha. destruct (item_stats l W a Ha) as (b & E & _ & _ & G). rewrite G. unfold B. now rewrite E. }
  rewrite N, D, V, G. cbn [bind]. eexists. split; [reflexivity|]. split; [rewrite map_length, !combine_length, !map_length; lia|].
  intros k b a row Hb Ha Hr. assert (NC : forall X Y (x : list X) (y : list Y) k u v, nth_error x k = Some u -> nth_error y k = Some v -> nth_error (combine x y) k = Some (u, v)).
  { clear. induction x as [|x0 x IH]; intros [|y0 y] [|k] u v H1 H2; try discriminate; cbn in *; [congruence|now apply IH]. }
  rewrite nth_error_map in Hr. rewrite (NC _ _ _ _ k ((((b, a), canonical_length b), length (filter (fun x => negb (x =? 0)%Z) (B a))), ((Z.of_nat (hi a (B a)) - 1)%Z, Z.of_nat (lo a (B a)))) (inject_Z (Z.of_nat (hi a (B a)) - 1 - Z.of_nat (lo a (B a))) / 2)%Q) in Hr.
  2:{ repeat apply NC; rewrite ?nth_error_map, ?Hb, ?Ha; reflexivity || assumption. }
  2:{ now rewrite nth_error_map, Ha. }
  cbn [option_map] in Hr. injection Hr as <-. cbn [fr_braid fr_image]. split; [reflexivity|]. split; [reflexivity|].
  assert (Ia : In a l) by (eapply nth_error_In; exact Ha). destruct (W a Ia) as (Wa & Pa & Da). destruct (item_stats l W a Ia) as (b0 & EB & _).
  unfold row_true. cbn [fr_braid fr_image fr_length fr_nz_terms fr_valmin fr_degmax fr_rhogap fr_ratio]. split; [reflexivity|].
  assert (VI : valid_index (apre a) []) by (rewrite Pa; constructor). split.
  - destruct (C66_nz_terms a [] Wa VI) as [_ E]. rewrite <- E. unfold nz_terms, B. rewrite EB, Pa. reflexivity.
  - split.
    + intros u w Lu Gw. assert (NZ : nonzero_poly (acoef a []) (aI a) (aJ a)) by (destruct Lu as [(i & j & Hi & Hj & K) _]; exists i, j, u; auto).
      destruct (lo_least a [] Wa VI NZ) as (Ll & Gh & LH & _). assert (EBk : block a [] = B a) by (unfold block, B; rewrite Pa; reflexivity). rewrite EBk in *.
      assert (U : u = lo a (B a)). { destruct Lu as [(i1 & j1 & Hi1 & Hj1 & K1) Z1], Ll as [(i2 & j2 & Hi2 & Hj2 & K2) Z2]. destruct (Nat.lt_trichotomy u (lo a (B a))) as [C|[C|C]]; [exfalso; apply K1; auto|exact C|exfalso; apply K2; auto]. }
      assert (U' : w = hi a (B a) - 1). { destruct Gw as [(i1 & j1 & Hi1 & Hj1 & K1) Z1], Gh as [(i2 & j2 & Hi2 & Hj2 & K2) Z2]. destruct (Nat.lt_trichotomy w (hi a (B a) - 1)) as [C|[C|C]]; [exfalso; apply K2; auto|exact C|exfalso; apply K1; auto]. }
      split; [now rewrite U|]. split; [lia|]. subst u w. unfold Qdiv, Qinv, inject_Z, Qmult, Qeq. cbn [Qnum Qden]. lia.
    + destruct (Nat.eqb_spec (canonical_length b) 0) as [E|E]; [exact E|]. split; [exact E|]. field. intros Q. unfold Qeq, inject_Z in Q. cbn in Q. lia.
Qed.
End Rows.

(** a list of images, one per braid: row k is about braid k and image k *)
Theorem C118_list braids l : length l = length braids -> (forall a, In a l -> wfa a /\ apre a = [] /\ 1 <= aD a) ->
  exists df, braids_images_to_dataframe braids (ImgList l) = Ok df /\ length df = length braids /\
  forall k b a row, nth_error braids k = Some b -> nth_error l k = Some a -> nth_error df k = Some row -> fr_braid row = b /\ fr_image row = a /\ row_true row.
Proof.
  intros L W. destruct (frame_rows braids l L W) as (df & E & R). exists df. split; [|exact R].
  unfold braids_images_to_dataframe. cbn [frame_images bind]. rewrite L, Nat.eqb_refl. cbn [bind]. exact E.
Qed.
(** an array of images: row k is about braid k and the k-th matrix of the array *)
Theorem C118_array braids A : wfa A -> apre A = [length braids] -> 1 <= aD A ->
  exists df, braids_images_to_dataframe braids (ImgArray A) = Ok df /\ length df = length braids /\
  forall k b row, nth_error braids k = Some b -> nth_error df k = Some row -> fr_braid row = b /\
    apre (fr_image row) = [] /\ aI (fr_image row) = aI A /\ aJ (fr_image row) = aJ A /\ aD (fr_image row) = aD A /\ adt (fr_image row) = adt A /\
    (forall i j e, i < aI A -> j < aJ A -> acoef (fr_image row) [] i j e = acoef A [k] i j e) /\ row_true row.
Proof.
  intros W P D. set (im := fun i => mkA [] (aI A) (aJ A) (aD A) (adt A) [nth i (ablocks A) []]).
  destruct W as (W1 & W2 & W3). rewrite P in W1. cbn in W1. rewrite Nat.mul_1_r in W1.
  assert (E : frame_images braids (ImgArray A) = Ok (map im (seq 0 (length braids)))).
  { unfold frame_images. rewrite P. cbn [length Nat.add Nat.eqb assert_ bind nth]. rewrite Nat.eqb_refl. cbn [assert_ bind]. apply mapM_ok. intros i Hi. apply in_seq in Hi.
    unfold arr_item. rewrite P. rewrite pyget_nat, (get_ok _ _ []) by lia. reflexivity. }
  assert (WI : forall a, In a (map im (seq 0 (length braids))) -> wfa a /\ apre a = [] /\ 1 <= aD a).
  { intros a Ha. apply in_map_iff in Ha. destruct Ha as (i & <- & Hi). apply in_seq in Hi. assert (In (nth i (ablocks A) []) (ablocks A)) by (apply nth_In; lia). rewrite Forall_forall in W2, W3. split; [|split; [reflexivity|exact D]].
    split; [reflexivity|]. split; constructor; auto. }
  destruct (frame_rows braids (map im (seq 0 (length braids))) ltac:(rewrite map_length, seq_length; reflexivity) WI) as (df & Ed & Ld & K).
  exists df. split; [unfold braids_images_to_dataframe; rewrite E; cbn [bind]; rewrite map_length, seq_length, Nat.eqb_refl; cbn [bind]; exact Ed|]. split; [exact Ld|].
  intros k b row Hb Hr. assert (Lk : k < length braids) by (apply nth_error_Some; congruence). destruct (K k b (im k) row Hb) as (E1 & E2 & E3); [|exact Hr|].
  { rewrite nth_error_map. rewrite (nth_error_nth' (seq 0 (length braids)) 0) by (rewrite seq_length; exact Lk). rewrite seq_nth by exact Lk. reflexivity. }
  split; [exact E1|]. rewrite E2. repeat (split; [reflexivity|]). split; [|exact E3]. intros i j e Hi Hj. destruct (Nat.lt_ge_cases e (aD A)) as [He|He]; [|rewrite !acoef_over by (exact He); reflexivity].
  rewrite !coef_block; cbn [im apre aI aJ aD]; auto.
  - unfold block. cbn [im apre ablocks]. rewrite P. cbn [ravel size fold_right nth]. replace (k * 1 + 0) with k by lia. reflexivity.
  - split; [rewrite P; cbn; lia|]. split; assumption.
  - rewrite P. apply valid_one. eauto.
  - apply (WI (im k)). apply in_map. apply in_seq. lia.
  - constructor.
Qed.
(** wrong shapes, counts and types are refused *)
Theorem C118_rejects braids : (forall A, length (apre A) <> 1 \/ nth 0 (apre A) 0 <> length braids -> braids_images_to_dataframe braids (ImgArray A) = Err AssertionError) /\
  (forall l, length l <> length braids -> braids_images_to_dataframe braids (ImgList l) = Err ValueError) /\ braids_images_to_dataframe braids ImgOther = Err ValueError.
Proof.
  split; [|split; [|reflexivity]].
  - intros A H. unfold braids_images_to_dataframe, frame_images. destruct (Nat.eqb_spec (length (apre A) + 3) 4) as [E|E]; [|reflexivity]. cbn [assert_ bind].
    destruct (Nat.eqb_spec (nth 0 (apre A) 0) (length braids)) as [E'|E']; [|reflexivity]. exfalso. destruct H as [H|H]; [lia|contradiction].
  - intros l H. unfold braids_images_to_dataframe. cbn [frame_images bind]. now rewrite (proj2 (Nat.eqb_neq _ _)) by auto.
Qed.
(** the rows of the braids with their images under JonesSummand(n, r, p).evaluate_braids:
    the last column is below 1 exactly for the braids of positive length whose evaluated
    matrix, modulo p, has its non-zero coefficients within fewer than 2 length + 1
    consecutive degrees *)
Theorem C118_evaluated n r p S R tb bs d : jones_summand n r p = Ok S -> jones_rep n r p = Ok R -> 1 <= r -> gnf_table n tb -> p <> 1%Z -> rep_dimension R = Ok (Z.of_nat d) ->
  (forall b, In b bs -> nf_value tb n b) ->
  (p <> 0%Z -> (Z.of_nat d * (Z.of_nat (n * (n - 1) + 1) * ((p - 1) * (p - 1))) < 2 ^ 31)%Z) ->
  (p = 0%Z -> n <= 9 /\ forall b q X, In b bs -> q <= length (o_factors b) -> rep_evaluate_nf tb R (NFObj n (o_pow b) (firstn q (o_factors b))) = Ok X -> int64_matrix X) ->
  exists images df, js_evaluate_braids tb S bs = Ok images /\ braids_images_to_dataframe bs (ImgList images) = Ok df /\ length df = length bs /\
  forall k b row, nth_error bs k = Some b -> nth_error df k = Some row -> fr_braid row = b /\ row_true row /\
    exists X, rep_evaluate_nf tb R b = Ok X /\
    ((exists q, fr_ratio row = Some q /\ (q < 1)%Q) <-> (0 < length (o_factors b) /\ below p d (Z.of_nat (length (o_factors b))) X)).
Proof.
  intros ES EJ Hr Ht Hp ED HV HB HZ. destruct (C80_order n r p S R tb bs d ES EJ Hr Ht Hp ED HV HB HZ) as (l & El & Ll & K).
  assert (W : forall a, In a l -> wfa a /\ apre a = [] /\ 1 <= aD a).
  { intros a Ha. apply In_nth_error in Ha. destruct Ha as [k Hk]. destruct (nth_error bs k) as [b|] eqn:Eb; [|apply nth_error_None in Eb; rewrite <- Ll in Eb; apply nth_error_None in Eb; congruence].
    destruct (K k b a Eb Hk) as (Wa & Pa & _ & _ & _ & X & s & _ & _ & (a1 & c1 & _ & _ & N) & _). split; [exact Wa|]. split; [exact Pa|]. destruct (aD a) eqn:Ed; [|lia]. exfalso. apply N. apply acoef_over. lia. }
  destruct (C118_list bs l Ll W) as (df & Ed & Ld & KD). exists l, df. split; [exact El|]. split; [exact Ed|]. split; [exact Ld|].
  intros k b row Hb Hrow. destruct (nth_error l k) as [a|] eqn:Ea; [|exfalso; apply nth_error_None in Ea; rewrite Ll in Ea; apply nth_error_None in Ea; congruence].
  destruct (KD k b a row Hb Ea Hrow) as (E1 & E2 & RT). split; [exact E1|]. split; [exact RT|]. destruct (K k b a Hb Ea) as (Wa & Pa & Ia & Ja & _ & X & s & EX & HS & HN & HR). exists X. split; [exact EX|].
  set (A := mkA [1] (aI a) (aJ a) (aD a) (adt a) (ablocks a)).
  assert (CF : forall i j e, acoef A [0] i j e = acoef a [] i j e) by (intros i j e; unfold acoef, A; cbn [apre aI aJ aD ablocks]; rewrite Pa; reflexivity).
  assert (IL : image_list p R tb d [b] A).
  { split; [destruct Wa as (W1 & W2); split; [rewrite Pa in W1; exact W1|exact W2]|]. split; [reflexivity|]. split; [exact Ia|]. split; [exact Ja|]. intros [|q] b' Hq; [|destruct q; discriminate]. injection Hq as <-.
    split; [exists X; split; [exact EX|]; exists s; intros i j e Hi Hj; rewrite CF; now apply HS|]. split; [destruct HN as (i & j & Hi & Hj & N); exists i, j; rewrite CF; auto|]. intros P0 i j e Hi Hj. rewrite CF. now apply HR. }
  destruct (gap_below p R tb d [b] A (Z.of_nat (length (o_factors b))) 0 b X ltac:(lia) IL eq_refl EX) as (gaps & x & EG & LG & NG & IFF).
  assert (Ein : In a l) by (eapply nth_error_In; exact Ea). destruct (item_stats l W a Ein) as (b0 & EB & _ & _ & EG').
  assert (EGA : rhogap A = rhogap a) by reflexivity. rewrite EGA, EG' in EG. injection EG as <-. cbn in NG. injection NG as NG.
  destruct RT as (RL & _ & RD & RR). rewrite E1 in RL.
  assert (GQ : (fr_rhogap row == x)%Q).
  { rewrite E2 in RD. assert (VI : valid_index (apre a) []) by (rewrite Pa; constructor). assert (NZ : nonzero_poly (acoef a []) (aI a) (aJ a)) by (destruct HN as (i & j & Hi & Hj & N); exists i, j, 0; rewrite Ia, Ja; auto).
    destruct (lo_least a [] Wa VI NZ) as (Lu & Gw & LH & _). destruct (RD _ _ Lu Gw) as (_ & _ & Q). assert (EBk : block a [] = b0) by (unfold block; rewrite Pa, EB; reflexivity). rewrite EBk in *. rewrite Q, <- NG.
    unfold Qdiv, Qinv, inject_Z, Qmult, Qeq. cbn [Qnum Qden]. lia. }
  rewrite <- IFF. unfold ratio_below_1. rewrite andb_true_iff, Z.ltb_lt, negb_true_iff, <- not_true_iff_false, Qle_bool_iff.
  set (m := length (o_factors b)) in *. rewrite RL in RR. destruct (fr_ratio row) as [q|].
  - destruct RR as [M0 RQ]. rewrite GQ in RQ. assert (IQ : (0 < inject_Z (Z.of_nat m))%Q) by (unfold Qlt, inject_Z; cbn; lia).
    split.
    + intros (q' & Eq & Lt). injection Eq as <-. split; [lia|]. split; [lia|]. intros Le. rewrite <- RQ in Le. apply (Qlt_not_le _ _ Lt). apply (Qmult_le_r _ _ _ IQ). rewrite Qmult_1_l. exact Le.
    + intros (_ & _ & NL). exists q. split; [reflexivity|]. apply Qnot_le_lt. intros Le. apply NL. rewrite <- RQ. rewrite <- (Qmult_1_l (inject_Z (Z.of_nat m))) at 1. apply (Qmult_le_r _ _ _ IQ). exact Le.
  - split; [intros (q & Eq & _); discriminate|]. intros [C _]. lia.
Qed.
(** sigma_1, its square and the identity, with their images for n = 3, r = 1, p = 2 *)
Example C118_case : exists R, jones_summand 3 1 2 = Ok (mkJS 3 1 2) /\ jones_rep 3 1 2 = Ok R /\ gnf_table 3 (gtb hdpick) /\ rep_dimension R = Ok (Z.of_nat 2) /\
  exists images df, js_evaluate_braids (gtb hdpick) (mkJS 3 1 2) [NFObj 3 0 [2]; NFObj 3 0 [2; 2]; NFObj 3 0 []]%Z = Ok images /\
    braids_images_to_dataframe [NFObj 3 0 [2]; NFObj 3 0 [2; 2]; NFObj 3 0 []]%Z (ImgList images) = Ok df /\
    map fr_length df = [1; 2; 0] /\ map fr_nz_terms df = [3; 4; 2] /\ map fr_degmax df = [2; 4; 0]%Z /\ map fr_valmin df = [0; 0; 0]%Z /\
    map (fun r => Qred (fr_rhogap r)) df = [1; 2; 0]%Q /\ map (fun r => option_map Qred (fr_ratio r)) df = [Some 1; Some 1; None]%Q.
Proof.
  destruct (jones_rep 3 1 2) as [R|] eqn:EJ; [|discriminate]. assert (ED : rep_dimension R = Ok 2%Z) by (destruct (PropsRep.jones_rep_ok _ _ _ _ EJ) as (_ & _ & _ & ->); reflexivity).
  exists R. split; [reflexivity|]. split; [reflexivity|]. split; [apply (gtb_is_table hdpick 3 hdpick_ok); lia|]. split; [exact ED|]. eexists _, _. split; [vm_compute; reflexivity|]. split; [vm_compute; reflexivity|]. vm_compute. repeat split.
Qed.
