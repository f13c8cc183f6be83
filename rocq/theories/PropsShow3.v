(** PropsShow3.v – properties C124 (matrices) and C126 (show.py). *)
From Verif Require Import Base ModelPoly ModelRepr ModelText ModelMatrix SpecMatrix ModelShow SpecPoly PolyTheory PolyDiv PropsPoly PropsMatrix SpecRep NumTheory MatrixTheory RepTheory PropsRepr PropsText PropsShow.
From Coq Require Import String Ascii List.
Import ListNotations.
Local Open Scope char_scope.
Local Open Scope list_scope.
Local Open Scope nat_scope.

(** ** C124: matrices *)
(** an int is displayed as the constant polynomial *)
Lemma num_latex_coerce x : num_latex x = lpoly_fmt true (coerce x).
Proof.
  destruct x as [c|p]; [|reflexivity]. cbn [num_latex coerce]. destruct c as [|c|c]; [reflexivity| |].
  - change (lint (Zpos c)) with (mkL 0 [Zpos c]). cbn -[dec]. change (Z.abs (Zpos c)) with (Zpos c). apply la_inj. rewrite ?la_app. cbn -[dec]. now rewrite ?app_nil_r.
  - change (lint (Zneg c)) with (mkL 0 [Zneg c]). cbn -[dec]. change (Z.abs (Zneg c)) with (Zpos c). apply la_inj. rewrite ?la_app. cbn -[dec]. rewrite ?la_app, ?app_nil_r. reflexivity.
Qed.
Definition okl (c : ascii) : Prop := c <> "&" /\ c <> "\".
Lemma la_lit2 s t : Forall okl (la s) -> Forall okl (la t) -> Forall okl (la (String.append s t)).
Proof. intros. rewrite la_app. now apply Forall_app. Qed.
Lemma dec_okl n : Forall okl (la (dec n)).
Proof. eapply Forall_impl; [|apply dec_chars]. intros c H. unfold is_digit in H. cbn in H. unfold okl. intuition (subst; discriminate). Qed.
Lemma fmt_okl p : Forall okl (la (lpoly_fmt true p)).
Proof.
  unfold lpoly_fmt. destruct (lcoeffs p) as [|c0 cs]; [lit|]. generalize (rev (enumerate (lval p) (c0 :: cs))) as l. generalize true at 2 as first. intros first l. revert first.
  induction l as [|[i c] l IH]; intros first; [constructor|]. cbn [render]. destruct (c =? 0)%Z; [apply IH|].
  repeat apply la_lit2; [| | |apply IH].
  - unfold sign_str. destruct ((0 <? c) && negb first)%Z; [lit|]. destruct ((c <? 0) && negb first)%Z; [lit|]. destruct (0 <? c)%Z; lit.
  - unfold lpoly_coeff. destruct (i =? 0)%Z; [apply dec_okl|]. destruct (Z.abs c =? 1)%Z; [lit|apply dec_okl].
  - unfold lpoly_term. destruct (i =? 0)%Z; [lit|]. destruct (i =? 1)%Z; [lit|]. apply la_lit2; [lit|]. apply la_lit2; [apply dec_okl|lit].
Qed.
Definition ends_well (l : list ascii) : Prop := exists t d, l = t ++ [d] /\ d <> " ".
Definition starts_well (l : list ascii) : Prop := exists c t, l = c :: t /\ c <> " ".
Lemma ends_app a b : ends_well b -> ends_well (a ++ b).
Proof. intros (t & d & -> & H). exists (a ++ t), d. split; [now rewrite app_assoc|exact H]. Qed.
Lemma body_ends b : body_ok b -> ends_well b.
Proof.
  intros [F (c & t & -> & _)]. destruct (exists_last (l := c :: t) ltac:(discriminate)) as (u & d & E). rewrite E in *. exists u, d. split; [reflexivity|]. apply Forall_app in F. destruct F as [_ F]. now inversion F.
Qed.
Lemma rend_ends l : forall first, l <> [] -> keys_ok l -> ends_well (rend first l).
Proof.
  induction l as [|[c b] l IH]; intros first N K; [contradiction|]. apply keys_inv in K. destruct K as [[_ B] K]. cbn [rend]. apply ends_app. destruct l as [|k l]; [cbn; rewrite app_nil_r; now apply body_ends|].
  apply ends_app, IH; [discriminate|exact K].
Qed.
Lemma rend_starts l : l <> [] -> keys_ok l -> starts_well (rend true l).
Proof.
  destruct l as [|[c b] l]; intros N K; [contradiction|]. apply keys_inv in K. destruct K as [[S [F (d & t & -> & _)]] K]. apply Forall_inv in F. cbn [rend]. destruct S as [-> | ->]; cbn; do 2 eexists; (split; [reflexivity|]); [exact F|discriminate].
Qed.
Lemma fmt_shape p : is_lpoly p -> starts_well (la (lpoly_fmt true p)) /\ ends_well (la (lpoly_fmt true p)).
Proof.
  intros H. apply is_lpoly_canon in H. destruct H as [_ C]. unfold lpoly_fmt. destruct (lcoeffs p) as [|c0 cs] eqn:Ec.
  - split; [exists "0", []|exists [], "0"]; split; [reflexivity|discriminate|reflexivity|discriminate].
  - destruct (C ltac:(discriminate)) as [F _]. rewrite render_rend. set (l := nonzero_terms _).
    assert (N : l <> []).
    { intros E. assert (I : In (lval p, c0) l). { unfold l, nonzero_terms. apply filter_In. split; [apply -> in_rev; left; reflexivity|]. cbn [snd]. cbn in F. destruct (Z.eqb_spec c0 0); [contradiction|reflexivity]. } rewrite E in I. destruct I. }
    assert (N' : map (key lpoly_coeff (lpoly_term true)) l <> []) by (destruct l; [contradiction|discriminate]). split; [apply rend_starts|apply rend_ends]; auto; apply lkeys_ok.
Qed.
Lemma starts_well_app l : starts_well l -> forall x, exists c t, l ++ x = c :: t /\ c <> " ".
Proof. intros (c & t & -> & H) x. exists c, (t ++ x). auto. Qed.
(** what may follow an entry *)
Definition after (x : list ascii) : Prop := (exists t, x = "\" :: t) \/ (exists t, x = " " :: "\" :: t) \/ (exists t, x = " " :: "&" :: t).
Definition row_end (x : list ascii) : Prop := (exists t, x = "\" :: t) \/ (exists t, x = " " :: "\" :: t).
Notation ft := (fun p => la (lpoly_fmt true p)).
Lemma entry_code p q x y : is_lpoly p -> is_lpoly q -> after x -> after y -> ft p ++ x = ft q ++ y -> p = q /\ x = y.
Proof.
  intros Hp Hq Ax Ay Q. pose proof (fmt_okl p) as Op. pose proof (fmt_okl q) as Oq. destruct (fmt_shape p Hp) as [_ (t & d & Ep & Nd)], (fmt_shape q Hq) as [_ (u & e & Eq & Ne)].
  assert (SP : forall x, after x -> exists pre c t, x = pre ++ c :: t /\ (pre = [] \/ pre = [" "]) /\ ~ okl c).
  { intros z [[w ->]|[[w ->]|[w ->]]]; [exists [], "\", w|exists [" "], "\", w|exists [" "], "&", w]; (split; [reflexivity|]); (split; [tauto|]); intros [A B]; contradiction. }
  destruct (SP x Ax) as (pre & c & w & -> & Hpre & Nc), (SP y Ay) as (pre' & c' & w' & -> & Hpre' & Nc').
  rewrite !app_assoc in Q. cbn beta in Q.
  apply (split_at (fun c => ~ okl c)) in Q.
  - destruct Q as [Q1 Q2]. injection Q2 as -> ->.
    assert (pre = pre' /\ ft p = ft q) as [-> Ef].
    { destruct Hpre as [-> | ->], Hpre' as [-> | ->]; rewrite ?app_nil_r in Q1.
      - auto.
      - rewrite Ep in Q1. apply app_inj_tail in Q1. destruct Q1. contradiction.
      - rewrite Eq in Q1. apply app_inj_tail in Q1. destruct Q1 as [_ Q1]. symmetry in Q1. contradiction.
      - apply app_inj_tail in Q1. destruct Q1. auto. }
    split; [|reflexivity]. apply (C81_fmt_injective true); auto. now apply la_inj.
  - apply Forall_app. split; [eapply Forall_impl; [|exact Op]; tauto|]. destruct Hpre as [-> | ->]; repeat constructor. intros K. apply K. split; discriminate.
  - apply Forall_app. split; [eapply Forall_impl; [|exact Oq]; tauto|]. destruct Hpre' as [-> | ->]; repeat constructor. intros K. apply K. split; discriminate.
  - right. eauto.
  - right. eauto.
Qed.
Lemma entry_start p y : is_lpoly p -> exists c t, ft p ++ y = c :: t /\ c <> " " /\ c <> "\".
Proof.
  intros H. destruct (fmt_shape p H) as [(c & t & E & N) _]. pose proof (fmt_okl p) as O. cbn beta. rewrite E in *. apply Forall_inv in O. destruct O. exists c, (t ++ y). auto.
Qed.
Definition row_text (row : list lpoly) : list ascii := jn (la " & ") (map ft row).
Lemma row_code r1 r2 x y : Forall is_lpoly r1 -> Forall is_lpoly r2 -> row_end x -> row_end y -> row_text r1 ++ x = row_text r2 ++ y -> r1 = r2 /\ x = y.
Proof.
  intros F1 F2 Ex Ey Q. apply (jn_inj ft is_lpoly (la " & ") after row_end) in Q; auto.
  - intros a b z w Ha Hb. now apply entry_code.
  - intros z. right. right. eexists. reflexivity.
  - intros z [[t ->]|[t ->]]; [left|right; left]; eauto.
  - intros z w [[t ->]|[t ->]] K; discriminate K.
  - intros a z w Ha Hz K. destruct (entry_start a w Ha) as (c & t & E & N1 & N2). rewrite <- K in E. destruct Hz as [[u ->]|[u ->]]; injection E as E _; congruence.
Qed.
Lemma rows_code r1 r2 : Forall (fun r => r <> [] /\ Forall is_lpoly r) r1 -> Forall (fun r => r <> [] /\ Forall is_lpoly r) r2 ->
  jn (la " \\ ") (map row_text r1) ++ la "\end{pmatrix}" = jn (la " \\ ") (map row_text r2) ++ la "\end{pmatrix}" -> r1 = r2.
Proof.
  intros F1 F2 Q. apply (jn_inj row_text (fun r => r <> [] /\ Forall is_lpoly r) (la " \\ ") row_end (fun z => z = la "\end{pmatrix}")) in Q; auto.
  - tauto.
  - intros a b z w [_ Ha] [_ Hb]. now apply row_code.
  - intros z. right. eexists. reflexivity.
  - intros z ->. left. eexists. reflexivity.
  - intros z w -> K. discriminate K.
  - intros a z w [Na Ha] -> K. destruct a as [|p a]; [contradiction|]. unfold row_text in K. rewrite jn_jt, <- app_assoc in K. inversion Ha; subst.
    match type of K with _ = _ ++ ?v => destruct (entry_start p v) as (c & t & E & N1 & N2) end; [assumption|]. cbn beta in *. rewrite <- K in E. injection E as E _. congruence.
Qed.
(** two entries stand for the same Laurent polynomial *)
Definition same_value (x y : num) : Prop := forall k, numcoef x k = numcoef y k.
Lemma is_lpoly_coerce x : entry_ok x -> is_lpoly (coerce x).
Proof. destruct x as [c|p]; [intros _; now exists 0%Z, [c]|exact (fun H => H)]. Qed.
Lemma coerce_value x y : entry_ok x -> entry_ok y -> (coerce x = coerce y <-> same_value x y).
Proof.
  intros Hx Hy. unfold same_value. split; [intros E k; now rewrite !numcoef_coerce, E|].
  intros E. apply canon_eq; [now apply is_lpoly_canon, is_lpoly_coerce|now apply is_lpoly_canon, is_lpoly_coerce|]. intros k. now rewrite <- !numcoef_coerce.
Qed.
Definition value_mat (m : mat num) : mat lpoly := mkM (mrows m) (mcols m) (map coerce (mdata m)).
Lemma value_rows m : mat_rows (value_mat m) = map (map coerce) (mat_rows m).
Proof. unfold mat_rows, value_mat. cbn [mrows mcols mdata]. rewrite map_map. apply map_ext. intros i. now rewrite <- firstn_map, <- skipn_map. Qed.
Lemma value_is m : is_matrix m -> is_matrix (value_mat m).
Proof. rewrite !is_matrix_wf. unfold mwf, value_mat. cbn [mrows mcols mdata]. now rewrite map_length. Qed.
Lemma mat_latex_text m : la (mat_latex m) = la "\begin{pmatrix}" ++ jn (la " \\ ") (map row_text (mat_rows (value_mat m))) ++ la "\end{pmatrix}".
Proof.
  unfold mat_latex. rewrite !la_app, la_jn, map_map, value_rows, map_map. do 2 f_equal. f_equal. apply map_ext. intros row. rewrite la_jn, map_map. unfold row_text. rewrite map_map. f_equal.
  apply map_ext. intros x. now rewrite num_latex_coerce.
Qed.
Lemma good_rows m : is_matrix m -> 0 < mrows m -> 0 < mcols m -> Forall entry_ok (mdata m) -> Forall (fun r => r <> [] /\ Forall is_lpoly r) (mat_rows (value_mat m)).
Proof.
  intros W R C F. assert (F' : Forall is_lpoly (mdata (value_mat m))). { cbn [value_mat mdata]. apply Forall_map. eapply Forall_impl; [|exact F]. apply is_lpoly_coerce. }
  destruct (C82_rows (value_mat m) (value_is m W) R) as (_ & L & _).
  apply (rows_valid is_lpoly) in F'. apply Forall_forall. intros r Hr. rewrite Forall_forall in F', L. split; [|now apply F']. intros ->. specialize (L _ Hr). cbn in L. lia.
Qed.
(** The display of a matrix shows its shape and its entries, an int and the constant LPoly of
    the same value looking alike. *)
Theorem C124_matrix (a b : mat num) : is_matrix a -> is_matrix b -> 0 < mrows a -> 0 < mcols a -> 0 < mrows b -> 0 < mcols b ->
  Forall entry_ok (mdata a) -> Forall entry_ok (mdata b) ->
  (mat_latex a = mat_latex b <-> mrows a = mrows b /\ mcols a = mcols b /\ Forall2 same_value (mdata a) (mdata b)).
Proof.
  intros Wa Wb Ra Ca Rb Cb Fa Fb.
  assert (V : map coerce (mdata a) = map coerce (mdata b) <-> Forall2 same_value (mdata a) (mdata b)).
  { clear - Fa Fb. revert Fb. generalize (mdata b) as l'. revert Fa. generalize (mdata a) as l. induction l as [|x l IH]; intros F [|y l'] F'; (split; intros H); try discriminate; try constructor; try (inversion H; fail).
    - cbn in H. injection H as H _. inversion F; inversion F'; subst. now apply coerce_value.
    - cbn in H. injection H as _ H. inversion F; inversion F'; subst. now apply IH.
    - inversion H; subst. inversion F; inversion F'; subst. cbn. f_equal; [now apply coerce_value|now apply IH]. }
  split.
  - intros E. apply (f_equal la) in E. rewrite !mat_latex_text in E. apply app_inv_head in E. apply rows_code in E; [|now apply good_rows|now apply good_rows].
    apply (rows_inj (value_mat a) (value_mat b)) in E; [|now apply value_is|now apply value_is|exact Ra]. unfold value_mat in E. injection E as E1 E2 E3. rewrite <- V. auto.
  - intros (E1 & E2 & E3). apply V in E3. apply la_inj. rewrite !mat_latex_text. unfold value_mat. now rewrite E1, E2, E3.
Qed.
Example C124_matrix_case : mat_latex (mkM 2 2 [NL (mkL 0 []); NL (mkL (-1) [1; 0; -2]); NI 1; NI (-3)]%Z) = "\begin{pmatrix}0 & -2v + v^{-1} \\ 1 & -3\end{pmatrix}"%string.
Proof. reflexivity. Qed.

(** ** C126: FramedMatrix *)
Definition cell (x : num) : list ascii := la (blank_zero (html_repr true (shown_num x))).
Definition cell_html (x : num) : list ascii := la td_open ++ cell x ++ la "</td>".
Lemma cell_cases x : match x with
  | NI 0%Z => cell x = []
  | NI n => cell x = la (dec n)
  | NL p => cell x = la " $ " ++ la (lpoly_fmt true p) ++ la " $ " end.
Proof.
  destruct x as [n|p]; unfold cell, blank_zero; cbn -[dec lpoly_fmt].
  - destruct n as [|n|n]; [reflexivity| |]; match goal with |- context [String.eqb (dec ?z) _] => destruct (String.eqb_spec (dec z) "0") as [E|E] end; try reflexivity; apply (dec_inj _ 0%Z) in E; discriminate.
  - now rewrite !la_app.
Qed.
Lemma cell_okc x : Forall (fun c => c <> "<") (cell x).
Proof.
  assert (D : forall n, Forall (fun c => c <> "<") (la (dec n))). { intros n. eapply Forall_impl; [|apply dec_chars]. intros c H. unfold is_digit in H. cbn in H. intuition (subst; discriminate). }
  pose proof (cell_cases x) as C. destruct x as [[|n|n]|p]; rewrite C; auto. apply Forall_app. split; [lit|]. apply Forall_app. split; [|lit].
  unfold lpoly_fmt. destruct (lcoeffs p) as [|c0 cs]; [lit|]. generalize (rev (enumerate (lval p) (c0 :: cs))) as l.
  assert (G : forall l first, Forall (fun c => c <> "<") (la (render lpoly_coeff (lpoly_term true) first l))); [|intros l; apply G].
  induction l as [|[i c] l IH]; intros first; [constructor|]. cbn [render]. destruct (c =? 0)%Z; [apply IH|].
  rewrite !la_app. repeat (apply Forall_app; split); [| | |apply IH].
  - unfold sign_str. destruct ((0 <? c) && negb first)%Z; [lit|]. destruct ((c <? 0) && negb first)%Z; [lit|]. destruct (0 <? c)%Z; lit.
  - unfold lpoly_coeff. destruct (i =? 0)%Z; [apply D|]. destruct (Z.abs c =? 1)%Z; [lit|apply D].
  - unfold lpoly_term. destruct (i =? 0)%Z; [lit|]. destruct (i =? 1)%Z; [lit|]. rewrite !la_app. repeat (apply Forall_app; split); [lit|apply D|lit].
Qed.
Lemma cell_inj x y : entry_ok x -> entry_ok y -> cell x = cell y -> x = y.
Proof.
  intros Hx Hy E. pose proof (cell_cases x) as Cx. pose proof (cell_cases y) as Cy.
  assert (NE : forall n, exists c t, la (dec n) = c :: t /\ c <> " "). { intros n. destruct (dec_chars n) as [F N]. destruct (la (dec n)) as [|c t]; [contradiction|]. exists c, t. split; [reflexivity|]. apply Forall_inv in F. unfold is_digit in F. cbn in F. intuition (subst; discriminate). }
  assert (KI : forall n m, cell (NI n) = cell (NI m) -> n = m).
  { intros n m K. pose proof (cell_cases (NI n)) as A. pose proof (cell_cases (NI m)) as B. destruct n as [|n|n], m as [|m|m]; try reflexivity; rewrite A in K; try rewrite B in K; try (apply dec_inj, la_inj; exact K);
      match type of K with [] = la (dec ?z) => destruct (NE z) as (c & t & Q & _); rewrite Q in K; discriminate | la (dec ?z) = [] => destruct (NE z) as (c & t & Q & _); rewrite Q in K; discriminate end. }
  assert (KM : forall n p, cell (NI n) <> cell (NL p)).
  { intros n p K. pose proof (cell_cases (NI n)) as A. pose proof (cell_cases (NL p)) as B. rewrite B in K. destruct n as [|n|n]; rewrite A in K; [discriminate| |]; match type of K with la (dec ?z) = _ => destruct (NE z) as (c & t & Q & N); rewrite Q in K end; cbn in K; injection K as K _; contradiction. }
  destruct x as [n|p], y as [m|q].
  - f_equal. now apply KI.
  - exfalso. exact (KM _ _ E).
  - exfalso. exact (KM _ _ (eq_sym E)).
  - rewrite Cx, Cy in E. apply app_inv_head, app_inv_tail, la_inj in E. f_equal. now apply (C81_fmt_injective true).
Qed.
Lemma cells_code l1 : forall l2 x y, Forall entry_ok l1 -> Forall entry_ok l2 -> length l1 = length l2 ->
  concat (map cell_html l1) ++ x = concat (map cell_html l2) ++ y -> l1 = l2 /\ x = y.
Proof.
  induction l1 as [|a l1 IH]; intros [|b l2] x y F1 F2 L Q; try discriminate; [now split|]. inversion F1; inversion F2; subst. cbn [map concat] in Q. unfold cell_html at 1 3 in Q. rewrite <- !app_assoc in Q.
  apply app_inv_head in Q. apply (split_at (fun c => c = "<")) in Q; [|apply cell_okc|apply cell_okc|right; do 2 eexists; split; reflexivity|right; do 2 eexists; split; reflexivity].
  destruct Q as [Q1 Q2]. apply cell_inj in Q1; auto. subst b. apply app_inv_head in Q2. apply IH in Q2; auto. destruct Q2 as [-> ->]. now split.
Qed.
Lemma la_concat0 l : la (String.concat "" l) = concat (map la l).
Proof. induction l as [|x [|y l] IH]; [reflexivity|cbn; now rewrite app_nil_r|].
  change (String.concat "" (x :: y :: l)) with (String.append x (String.concat "" (y :: l))). rewrite la_app, IH. reflexivity. Qed.
Definition row_entries (m : mat num) (i : nat) : list num := map (fun j => nth (mcols m * i + j) (mdata m) (NI 0)) (seq 0 (mcols m)).
Lemma mat_get_in (m : mat num) i j : is_matrix m -> i < mrows m -> j < mcols m -> mat_get m (Z.of_nat i) (Z.of_nat j) = Ok (nth (mcols m * i + j) (mdata m) (NI 0)).
Proof.
  rewrite is_matrix_wf. unfold mwf. intros W Hi Hj. unfold mat_get. destruct (Z.leb_spec 0 (Z.of_nat i)); [|lia]. destruct (Z.ltb_spec (Z.of_nat i) (Z.of_nat (mrows m))); [|lia]. destruct (Z.leb_spec 0 (Z.of_nat j)); [|lia]. destruct (Z.ltb_spec (Z.of_nat j) (Z.of_nat (mcols m))); [|lia].
  cbn [andb negb]. rewrite !Nat2Z.id. apply get_ok. rewrite W. nia.
Qed.
Definition frame_row (lab : shown) (l : list num) : list ascii := la "<tr>" ++ la td_open ++ la (html_repr false lab) ++ la "</td>" ++ concat (map cell_html l) ++ la "</tr>".
Definition has_html (x : shown) : Prop := sh_html x <> None.
Lemma framed_text rows cols m : is_matrix m -> mrows m = length rows -> mcols m = length cols -> Forall has_html cols ->
  exists head s, mapM col_html cols = Ok head /\ framed_html rows cols (entry_of m) = Ok s /\
    la s = la "<table><tr><td></td>" ++ concat (map la head) ++ la "</tr>" ++ concat (map (fun i => frame_row (nth i rows (mkShown None None None "")) (row_entries m i)) (seq 0 (length rows))) ++ la "</table>".
Proof.
  intros W Hr Hc Hh. assert (HM : exists head, mapM col_html cols = Ok head).
  { clear - Hh. induction Hh as [|x l H _ [h E]]; [now exists []|]. cbn [mapM]. unfold col_html at 1. destruct (sh_html x) as [t|] eqn:Q; [|contradiction]. cbn [bind]. rewrite E. eexists. reflexivity. }
  destruct HM as [head EH]. exists head. unfold framed_html. rewrite EH. cbn [bind].
  assert (RM : mapM (fun i => r <- Base.get rows i ;; cells <- mapM (fun j => x <- entry_of m i j ;; Ok (String.append td_open (String.append (blank_zero (html_repr true x)) "</td>"))) (seq 0 (length cols)) ;;
      Ok (String.concat "" (["<tr>"%string; td_open; html_repr false r; "</td>"%string] ++ cells ++ ["</tr>"%string]))) (seq 0 (length rows)) =
    Ok (map (fun i => string_of_list_ascii (frame_row (nth i rows (mkShown None None None "")) (row_entries m i))) (seq 0 (length rows)))).
  { apply mapM_ok. intros i Hi. apply in_seq in Hi. rewrite (get_ok _ _ (mkShown None None None "")) by lia. cbn [bind].
    rewrite (mapM_ok _ (fun j => string_of_list_ascii (cell_html (nth (mcols m * i + j) (mdata m) (NI 0))))).
    - cbn [bind]. f_equal. apply la_inj. rewrite list_ascii_of_string_of_list_ascii, la_concat0. rewrite !map_app, !concat_app. unfold frame_row, row_entries. rewrite <- Hc. cbn [map concat]. rewrite !app_nil_r, <- !app_assoc. do 4 f_equal. f_equal. f_equal. rewrite !map_map. apply map_ext. intros j. now rewrite list_ascii_of_string_of_list_ascii.
    - intros j Hj. apply in_seq in Hj. unfold entry_of. rewrite mat_get_in by (auto; lia). cbn [bind]. f_equal. apply la_inj. rewrite list_ascii_of_string_of_list_ascii, !la_app. reflexivity. }
  rewrite RM. cbn [bind]. eexists. split; [reflexivity|]. split; [reflexivity|].
  rewrite la_concat0. rewrite !map_app, !concat_app. cbn [map concat]. rewrite la_concat0, map_map, !app_nil_r. rewrite (map_ext _ _ (fun i => list_ascii_of_string_of_list_ascii (frame_row (nth i rows (mkShown None None None "")) (row_entries m i)))). reflexivity.
Qed.
Lemma frame_rows_code (L : nat -> shown) (f g : nat -> list num) is_ : forall x y, (forall i, In i is_ -> Forall entry_ok (f i) /\ Forall entry_ok (g i) /\ length (f i) = length (g i)) ->
  concat (map (fun i => frame_row (L i) (f i)) is_) ++ x = concat (map (fun i => frame_row (L i) (g i)) is_) ++ y -> (forall i, In i is_ -> f i = g i) /\ x = y.
Proof.
  induction is_ as [|i is_ IH]; intros x y H Q; [split; [intros i []|exact Q]|]. cbn [map concat] in Q. unfold frame_row at 1 3 in Q. rewrite <- !app_assoc in Q. do 4 apply app_inv_head in Q.
  destruct (H i (or_introl eq_refl)) as (F & G & Le). apply cells_code in Q; auto. destruct Q as [Q1 Q2]. apply app_inv_head in Q2. apply IH in Q2; [|intros j Hj; apply H; now right]. destruct Q2 as [Q2 ->]. split; [|reflexivity]. intros j [<-|Hj]; auto.
Qed.
Lemma row_entries_ok m i : Forall entry_ok (mdata m) -> Forall entry_ok (row_entries m i).
Proof.
  intros F. apply Forall_map, Forall_forall. intros j _. destruct (nth_in_or_default (mcols m * i + j) (mdata m) (NI 0)) as [I|E]; [rewrite Forall_forall in F; now apply F|]. rewrite E. exact I.
Qed.
(** With the same labels, two matrices get the same table exactly if they have the same entries. *)
Theorem C126_entries rows cols a b : is_matrix a -> is_matrix b -> mrows a = length rows -> mcols a = length cols -> mrows b = length rows -> mcols b = length cols ->
  Forall has_html cols -> Forall entry_ok (mdata a) -> Forall entry_ok (mdata b) ->
  exists s t, framed_html rows cols (entry_of a) = Ok s /\ framed_html rows cols (entry_of b) = Ok t /\ (s = t <-> a = b).
Proof.
  intros Wa Wb Ra Ca Rb Cb Hh Fa Fb. destruct (framed_text rows cols a Wa Ra Ca Hh) as (h & s & Eh & Es & Ls), (framed_text rows cols b Wb Rb Cb Hh) as (h' & t & Eh' & Et & Lt). rewrite Eh in Eh'. injection Eh' as <-.
  exists s, t. split; [exact Es|]. split; [exact Et|]. split; [|intros ->; congruence]. intros ->. rewrite Ls in Lt. do 3 apply app_inv_head in Lt. apply app_inv_tail in Lt.
  apply (f_equal (fun l => l ++ [])) in Lt. apply frame_rows_code in Lt; [|intros i _; split; [now apply row_entries_ok|split; [now apply row_entries_ok|unfold row_entries; now rewrite !map_length, !seq_length, Ca, Cb]]]. destruct Lt as [Q _].
  apply is_matrix_wf in Wa, Wb. unfold mwf in Wa, Wb. destruct a as [r c d], b as [r' c' d']. cbn [mrows mcols mdata] in *. subst r c r' c'. f_equal. apply (nth_ext _ _ (NI 0) (NI 0)); [congruence|].
  intros k Hk. set (C := length cols) in *. assert (C <> 0) by (intros E; rewrite E in *; lia).
  assert (D : k = C * (k / C) + k mod C) by (apply Nat.div_mod; assumption). assert (k mod C < C) by (apply Nat.mod_upper_bound; assumption).
  assert (k / C < length rows) by (apply Nat.div_lt_upper_bound; lia). specialize (Q (k / C) ltac:(apply in_seq; lia)). unfold row_entries in Q. cbn [mrows mcols mdata] in Q.
  apply (f_equal (fun l => nth (k mod C) l (NI 0))) in Q. rewrite !nth_map_seq in Q by assumption. now rewrite D.
Qed.
(** The function f of show.py is there to leave zero entries blank.  It does so for int entries ... *)
Definition cell_text (x : num) : string := blank_zero (html_repr true (shown_num x)).
Theorem C126_zeros_blank_partial n : cell_text (NI n) = ""%string <-> n = 0%Z.
Proof.
  split; [|intros ->; reflexivity]. intros E. apply (f_equal la) in E. change (cell (NI n) = []) in E. pose proof (cell_cases (NI n)) as C. destruct n; [reflexivity| |]; rewrite C in E; now apply dec_chars in E.
Qed.
(** ... but a zero LPoly is shown as 0, because its LaTeX is wrapped in dollars before the comparison *)
Theorem C126_zeros_blank_refuted : ~ (forall x, entry_ok x -> (forall k, numcoef x k = 0%Z) -> cell_text x = ""%string).
Proof. intros H. specialize (H (NL (mkL 0 []))). cbn in H. discriminate H; [exists 0%Z, []; reflexivity|]. intros k. unfold numcoef, coeff_at. cbn [lval lcoeffs]. destruct (k <? 0)%Z; [reflexivity|]. now destruct (Z.to_nat (k - 0)). Qed.
Theorem C126_lpoly_never_blank p : cell_text (NL p) = (" $ " ++ lpoly_fmt true p ++ " $ ")%string.
Proof. reflexivity. Qed.
(** a column label without _repr_html_ makes the whole display fail *)
Theorem C126_columns_need_html rows cols e : ~ Forall has_html cols -> framed_html rows cols e = Err AttributeError.
Proof.
  intros H. unfold framed_html. assert (E : mapM col_html cols = Err AttributeError); [|now rewrite E].
  induction cols as [|x cols IH]; [destruct H; constructor|]. cbn [mapM]. unfold col_html at 1. destruct (sh_html x) as [t|] eqn:Q; [|reflexivity]. cbn [bind]. rewrite IH; [reflexivity|]. intros K. apply H. constructor; [unfold has_html; now rewrite Q|exact K].
Qed.
Definition ex_label (t : string) : shown := mkShown (Some t) None None "".
Example C126_case : framed_html [ex_label "a"] [ex_label "b"; ex_label "c"] (entry_of (mkM 1 2 [NI 0; NL (mkL 1 [2%Z])])) =
  Ok ("<table><tr><td></td>" ++ td_open ++ "b</td>" ++ td_open ++ "c</td></tr><tr>" ++ td_open ++ "a</td>" ++ td_open ++ "</td>" ++ td_open ++ " $ 2v $ </td></tr></table>")%string.
Proof. reflexivity. Qed.
