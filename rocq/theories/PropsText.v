(** PropsText.v – C111: the printed forms of matrices. *)
From Verif Require Import Base ModelPoly SpecPoly PolyTheory PropsPoly ModelMatrix SpecMatrix MatrixTheory NumTheory PropsMatrix ModelRepr PropsRepr ModelText.
From Coq Require Import String Ascii DecimalString DecimalZ.
From Coq Require Import List. Import ListNotations.
Local Open Scope char_scope.
Local Open Scope list_scope.
Local Open Scope nat_scope.

(** a text without comma and brackets *)
Definition plain (s : list ascii) : Prop := s <> [] /\ Forall (fun c => c <> "," /\ c <> "]" /\ c <> "[") s.
(** comma separated *)
Definition jt (l : list (list ascii)) : list ascii := concat (map (fun x => [","; " "] ++ x) l).
Definition jl (l : list (list ascii)) : list ascii := match l with [] => [] | x :: l => x ++ jt l end.
Lemma la_join l : la (join ", " l) = jl (map la l).
Proof.
  destruct l as [|x l]; [reflexivity|]. revert x. induction l as [|y l IH]; intros x; [cbn; now rewrite app_nil_r|].
  change (join ", " (x :: y :: l)) with (String.append x (String.append ", " (join ", " (y :: l)))). rewrite !la_app, IH. reflexivity.
Qed.
Lemma jt_inj l1 : forall l2 t1 t2, Forall plain l1 -> Forall plain l2 -> jt l1 ++ "]" :: t1 = jt l2 ++ "]" :: t2 -> l1 = l2 /\ t1 = t2.
Proof.
  induction l1 as [|x l1 IH]; intros [|y l2] t1 t2 F1 F2 E.
  - injection E as ->. auto.
  - discriminate.
  - discriminate.
  - unfold jt in E. cbn [map concat] in E. rewrite <- !app_assoc in E. cbn [app] in E. injection E as E. fold (jt l1) in E. fold (jt l2) in E.
    inversion F1 as [|? ? [_ Px] F1']; inversion F2 as [|? ? [_ Py] F2']; subst.
    assert (HD : forall l t, jt l ++ "]" :: t = [] \/ exists c u, jt l ++ "]" :: t = c :: u /\ (c = "," \/ c = "]")) by (intros [|z l] t; right; cbn; eauto).
    destruct (split_at (fun c => c = "," \/ c = "]") x y (jt l1 ++ "]" :: t1) (jt l2 ++ "]" :: t2) E) as [-> E'].
    + eapply Forall_impl; [|exact Px]. cbn. tauto.
    + eapply Forall_impl; [|exact Py]. cbn. tauto.
    + apply HD.
    + apply HD.
    + destruct (IH l2 t1 t2 F1' F2' E') as [-> ->]. auto.
Qed.
Lemma jl_inj l1 l2 t1 t2 : Forall plain l1 -> Forall plain l2 -> jl l1 ++ "]" :: t1 = jl l2 ++ "]" :: t2 -> l1 = l2 /\ t1 = t2.
Proof.
  intros F1 F2 E. destruct l1 as [|x l1], l2 as [|y l2].
  - injection E as ->. auto.
  - exfalso. cbn [jl app] in E. inversion F2 as [|? ? [NE P] _]; subst. destruct y as [|c y]; [contradiction|]. injection E as <- _. apply Forall_inv in P. tauto.
  - exfalso. cbn [jl app] in E. inversion F1 as [|? ? [NE P] _]; subst. destruct x as [|c x]; [contradiction|]. injection E as -> _. apply Forall_inv in P. tauto.
  - apply (jt_inj (x :: l1) (y :: l2) t1 t2 F1 F2). change (jt (x :: l1)) with ("," :: " " :: jl (x :: l1)). change (jt (y :: l2)) with ("," :: " " :: jl (y :: l2)). cbn [app]. now rewrite E.
Qed.
(** blocks: pre, entries, a bracket, post *)
Definition blocks (pre post : list ascii) (rows : list (list (list ascii))) : list ascii := concat (map (fun row => pre ++ jl row ++ "]" :: post) rows).
Lemma blocks_inj pre post t r1 : forall r2, (forall u, t <> pre ++ u) -> Forall (Forall plain) r1 -> Forall (Forall plain) r2 -> blocks pre post r1 ++ t = blocks pre post r2 ++ t -> r1 = r2.
Proof.
  induction r1 as [|x r1 IH]; intros [|y r2] NT F1 F2 E; [reflexivity| | |].
  - exfalso. unfold blocks in E. cbn [map concat app] in E. rewrite <- !app_assoc in E. exact (NT _ E).
  - exfalso. unfold blocks in E. cbn [map concat app] in E. rewrite <- !app_assoc in E. symmetry in E. exact (NT _ E).
  - unfold blocks in E. cbn [map concat app] in E. fold (blocks pre post r1) in E. fold (blocks pre post r2) in E. rewrite <- !app_assoc in E. apply app_inv_head in E. cbn [app] in E.
    inversion F1 as [|? ? G1 G1']; inversion F2 as [|? ? G2 G2']; subst. destruct (jl_inj _ _ _ _ G1 G2 E) as [-> E']. apply app_inv_head in E'. f_equal. apply IH; auto.
Qed.
Section T.
Context {R : Type} (show : R -> string) (V : R -> Prop).
Hypothesis (SI : forall x y, V x -> V y -> show x = show y -> x = y) (SP : forall x, V x -> plain (la (show x))).
Definition lrow (row : list R) : list (list ascii) := map la (map show row).
Lemma lrow_plain row : Forall V row -> Forall plain (lrow row).
Proof using SP. intros F. unfold lrow. rewrite map_map. apply Forall_map. eapply Forall_impl; [|exact F]. exact SP. Qed.
Lemma lrow_inj r1 : forall r2, Forall V r1 -> Forall V r2 -> lrow r1 = lrow r2 -> r1 = r2.
Proof using SI. induction r1 as [|x r1 IH]; intros [|y r2] F1 F2 E; try discriminate; [reflexivity|]. inversion F1; inversion F2; subst. cbn in E. injection E as E1 E2. f_equal; [apply SI; auto; now apply la_inj|]. apply IH; auto. Qed.
Lemma lrows_inj r1 : forall r2, Forall (Forall V) r1 -> Forall (Forall V) r2 -> map lrow r1 = map lrow r2 -> r1 = r2.
Proof using SI. induction r1 as [|x r1 IH]; intros [|y r2] F1 F2 E; try discriminate; [reflexivity|]. inversion F1; inversion F2; subst. cbn [map] in E. injection E as E1 E2. f_equal; [now apply lrow_inj|]. apply IH; auto. Qed.
Lemma lrows_plain r : Forall (Forall V) r -> Forall (Forall plain) (map lrow r).
Proof using SP. intros F. apply Forall_map. eapply Forall_impl; [|exact F]. exact lrow_plain. Qed.
Lemma rows_valid (m : mat R) : Forall V (mdata m) -> Forall (Forall V) (mat_rows m).
Proof using Type.
  intros F. unfold mat_rows. apply Forall_map. apply Forall_forall. intros i _. rewrite Forall_forall in F. apply Forall_forall. intros x Hx. apply F. rewrite <- (firstn_skipn (mcols m * i) (mdata m)). apply in_app_iff. right. rewrite <- (firstn_skipn (mcols m) (skipn (mcols m * i) (mdata m))). apply in_app_iff. now left.
Qed.
Lemma rows_inj (a b : mat R) : is_matrix a -> is_matrix b -> 0 < mrows a -> mat_rows a = mat_rows b -> a = b.
Proof using Type.
  intros Wa Wb P E. destruct (C82_rows a Wa P) as (La & _ & Ra). destruct (mat_rows b) as [|r0 rb] eqn:Eb; [rewrite E in La; cbn in La; lia|].
  assert (Pb : 0 < mrows b). { destruct (mrows b) eqn:Q; [|lia]. unfold mat_rows in Eb. rewrite Q in Eb. discriminate. }
  destruct (C82_rows b Wb Pb) as (_ & _ & Rb). rewrite Eb, <- E, Ra in Rb. congruence.
Qed.
(** ** str *)
Lemma str_text (m : mat R) : la (mat_str show m) = ["M"; "["] ++ match map lrow (mat_rows m) with [] => ["]"] | row :: rows => "[" :: jl row ++ "]" :: blocks [","; " "; "["] [] rows ++ ["]"] end.
Proof using Type.
  unfold mat_str. rewrite !la_app, la_join. cbn [la app]. do 2 f_equal. destruct (mat_rows m) as [|row rows]; [reflexivity|]. cbn [map jl]. rewrite !la_app, la_join. cbn [la app]. f_equal. rewrite <- !app_assoc. f_equal. cbn [app]. f_equal.
  f_equal. unfold jt, blocks. f_equal. rewrite !map_map. apply map_ext. intros x. rewrite !la_app, la_join. reflexivity.
Qed.
Theorem text_str (a b : mat R) : is_matrix a -> is_matrix b -> Forall V (mdata a) -> Forall V (mdata b) -> mat_str show a = mat_str show b -> mrows a = mrows b /\ (0 < mrows a -> a = b).
Proof using All.
  intros Wa Wb Va Vb E. apply (f_equal la) in E. rewrite !str_text in E. cbn [app] in E. injection E as E. pose proof (rows_valid a Va) as Ra. pose proof (rows_valid b Vb) as Rb.
  assert (L : forall m : mat R, List.length (mat_rows m) = mrows m) by (intros m; unfold mat_rows; now rewrite map_length, seq_length).
  assert (EQ : mat_rows a = mat_rows b).
  { destruct (mat_rows a) as [|x ra], (mat_rows b) as [|y rb]; cbn [map] in E; try discriminate; [reflexivity|]. injection E as E. inversion Ra as [|? ? G1 G1']; inversion Rb as [|? ? G2 G2']; subst.
    destruct (jl_inj _ _ _ _ (lrow_plain x G1) (lrow_plain y G2) E) as [E1 E2]. apply blocks_inj in E2; [|intros u Q; discriminate|now apply lrows_plain|now apply lrows_plain]. f_equal; [now apply lrow_inj|now apply lrows_inj]. }
  split; [rewrite <- (L a), <- (L b); congruence|]. intros P. now apply rows_inj.
Qed.
(** ** repr *)
Definition nlc : ascii := ascii_of_nat 10.
Lemma la_lines x l : la (join nl (x :: l)) = la x ++ concat (map (fun y => nlc :: la y) l).
Proof using Type. revert x. induction l as [|y l IH]; intros x; [cbn; now rewrite app_nil_r|]. change (join nl (x :: y :: l)) with (String.append x (String.append nl (join nl (y :: l)))). rewrite !la_app, IH. reflexivity. Qed.
Lemma repr_text (m : mat R) : la (mat_repr show m) = la "Matrix(" ++
  (if (mrows m =? 0) || (mcols m =? 0) then la (dec (Z.of_nat (mrows m))) ++ "," :: " " :: la (dec (Z.of_nat (mcols m))) ++ la ", [])"
   else "[" :: (if mrows m =? 1 then "[" :: jl (lrow (mdata m)) ++ "]" :: la "])"
   else if mcols m =? 1 then match lrow (mdata m) with [] => la "])" | x :: l => "[" :: jl [x] ++ "]" :: blocks [","; " "; "["] [] (map (fun y => [y]) l) ++ la "])" end
   else blocks (nlc :: la "    [") [","] (map lrow (mat_rows m)) ++ nlc :: la "])")).
Proof using Type.
  unfold mat_repr. destruct ((mrows m =? 0) || (mcols m =? 0)); [rewrite !la_app; reflexivity|]. destruct (mrows m =? 1); [rewrite !la_app, la_join; reflexivity|]. destruct (mcols m =? 1).
  - rewrite !la_app, la_join. destruct (mdata m) as [|x l]; [reflexivity|]. cbn [lrow map jl]. rewrite !la_app. cbn [la app]. do 9 f_equal. unfold jl, jt at 2. cbn [map concat]. rewrite app_nil_r, <- !app_assoc. f_equal. cbn [app]. f_equal. unfold jt, blocks. f_equal. f_equal. rewrite !map_map. apply map_ext. intros y. rewrite !la_app. unfold jl, jt. cbn [map concat la app]. now rewrite app_nil_r.
  - cbn [app]. rewrite la_lines. cbn [la app]. do 8 f_equal. rewrite map_app, concat_app. f_equal. unfold blocks. f_equal. rewrite !map_map. apply map_ext. intros row. rewrite !la_app, la_join. cbn [la app]. reflexivity.
Qed.
Lemma concat_rows (m : mat R) : is_matrix m -> 0 < mrows m -> exists row rows, mat_rows m = row :: rows.
Proof using Type. intros W P. destruct (C82_rows m W P) as (L & _). destruct (mat_rows m) as [|row rows]; [cbn in L; lia|eauto]. Qed.
Lemma dec_head n : exists c u, la (dec (Z.of_nat n)) = c :: u /\ is_digit c.
Proof using Type. destruct (dec_digits (Z.of_nat n) ltac:(lia)) as [D N]. destruct (la (dec (Z.of_nat n))) as [|c u]; [contradiction|]. exists c, u. split; [reflexivity|]. now inversion D. Qed.
Theorem text_repr (a b : mat R) : is_matrix a -> is_matrix b -> Forall V (mdata a) -> Forall V (mdata b) -> mat_repr show a = mat_repr show b -> a = b.
Proof using All.
  intros Wa Wb Va Vb E. apply (f_equal la) in E. rewrite !repr_text in E. apply app_inv_head in E. pose proof (proj1 (is_matrix_wf a) Wa) as La. pose proof (proj1 (is_matrix_wf b) Wb) as Lb. unfold mwf in La, Lb.
  pose proof (lrow_plain _ Va) as Pa. pose proof (lrow_plain _ Vb) as Pb.
  assert (DE : forall n u v, la (dec (Z.of_nat n)) ++ u = "[" :: v -> False). { intros n u v Q. destruct (dec_head n) as (c & w & Ec & D). rewrite Ec in Q. injection Q as -> _. unfold is_digit in D. cbn in D. intuition discriminate. }
  destruct (Nat.eqb_spec (mrows a) 0) as [A0|A0], (Nat.eqb_spec (mcols a) 0) as [A1|A1], (Nat.eqb_spec (mrows b) 0) as [B0|B0], (Nat.eqb_spec (mcols b) 0) as [B1|B1]; cbn [orb] in E;
    try (exfalso; eapply DE; exact E); try (exfalso; symmetry in E; eapply DE; exact E);
    try (assert (DC : forall n, Forall (fun c => ~ c = ",") (la (dec (Z.of_nat n)))) by (intros n; destruct (dec_digits (Z.of_nat n) ltac:(lia)) as [D _]; eapply Forall_impl; [|exact D]; intros c Hc ->; unfold is_digit in Hc; cbn in Hc; intuition discriminate);
      destruct (split_at (fun c => c = ",") _ _ _ _ E (DC _) (DC _)) as [E1 E2]; [right; eauto|right; eauto|]; injection E2 as E2; destruct (split_at (fun c => c = ",") _ _ _ _ E2 (DC _) (DC _)) as [E3 _]; [right; cbn; eauto|right; cbn; eauto|];
      apply la_inj, dec_inj in E1, E3; destruct a as [ra ca da], b as [rb cb db]; cbn [mrows mcols mdata] in *; assert (ra = rb) as <- by lia; assert (ca = cb) as <- by lia; f_equal; assert (ra * ca = 0) as Q by nia; rewrite Q in La, Lb; destruct da, db; try discriminate; reflexivity).
  injection E as E.
  assert (SH : forall m : mat R, mrows m <> 0 -> mcols m <> 0 -> List.length (mdata m) = mrows m * mcols m -> mcols m = 1 -> mrows m <> 1 -> exists x y l, lrow (mdata m) = x :: y :: l).
  { intros m N0 N1 L C N. destruct (mdata m) as [|x [|y l]]; cbn in L; [nia|nia|]. unfold lrow. cbn. eauto. }
  assert (DAT : mrows a = mrows b -> mcols a = mcols b -> mdata a = mdata b -> a = b) by (destruct a, b; cbn; intros; congruence).
  assert (LD : forall l, List.length (lrow l) = List.length l) by (intros l; unfold lrow; now rewrite !map_length).
  destruct (Nat.eqb_spec (mrows a) 1) as [A2|A2], (Nat.eqb_spec (mrows b) 1) as [B2|B2].
  - injection E as E. destruct (jl_inj _ _ _ _ Pa Pb E) as [E1 _]. apply lrow_inj in E1; auto. apply DAT; [congruence| |exact E1]. rewrite E1 in La. nia.
  - exfalso. destruct (Nat.eqb_spec (mcols b) 1) as [B3|B3].
    + destruct (SH b B0 B1 Lb B3 B2) as (x & y & l & Q). rewrite Q in E, Pb. injection E as E. inversion Pb as [|? ? Px Pl]; subst. destruct (jl_inj (lrow (mdata a)) [x] _ _ Pa (Forall_cons _ Px (Forall_nil _)) E) as [_ E2]. discriminate.
    + destruct (concat_rows b Wb ltac:(lia)) as (row & rows & Q). rewrite Q in E. discriminate.
  - exfalso. destruct (Nat.eqb_spec (mcols a) 1) as [A3|A3].
    + destruct (SH a A0 A1 La A3 A2) as (x & y & l & Q). rewrite Q in E, Pa. injection E as E. inversion Pa as [|? ? Px Pl]; subst. destruct (jl_inj [x] (lrow (mdata b)) _ _ (Forall_cons _ Px (Forall_nil _)) Pb E) as [_ E2]. discriminate.
    + destruct (concat_rows a Wa ltac:(lia)) as (row & rows & Q). rewrite Q in E. discriminate.
  - destruct (Nat.eqb_spec (mcols a) 1) as [A3|A3], (Nat.eqb_spec (mcols b) 1) as [B3|B3].
    + destruct (SH a A0 A1 La A3 A2) as (x & y & l & Qa), (SH b B0 B1 Lb B3 B2) as (x' & y' & l' & Qb). remember (y :: l) as u eqn:Eu. remember (y' :: l') as u' eqn:Eu'. clear Eu Eu'. rewrite Qa in Pa. rewrite Qb in Pb. rewrite Qa, Qb in E. injection E as E. inversion Pa as [|? ? Px Pl]; inversion Pb as [|? ? Px' Pl']; subst.
      destruct (jl_inj [x] [x'] _ _ (Forall_cons _ Px (Forall_nil _)) (Forall_cons _ Px' (Forall_nil _)) E) as [E1 E2]. injection E1 as <-. apply blocks_inj in E2; [|intros w Q; discriminate|apply Forall_map; eapply Forall_impl; [|exact Pl]; intros; constructor; auto|apply Forall_map; eapply Forall_impl; [|exact Pl']; intros; constructor; auto].
      assert (E3 : lrow (mdata a) = lrow (mdata b)). { rewrite Qa, Qb. f_equal. clear - E2. revert u' E2. induction u as [|z u IH]; intros [|z' u'] Q; try discriminate; [reflexivity|]. cbn in Q. injection Q as -> Q. f_equal. auto. }
      apply lrow_inj in E3; auto. apply DAT; [|congruence|exact E3]. rewrite E3 in La. rewrite A3 in La. rewrite B3 in Lb. lia.
    + exfalso. destruct (SH a A0 A1 La A3 A2) as (x & y & l & Q). destruct (concat_rows b Wb ltac:(lia)) as (row & rows & Q'). rewrite Q, Q' in E. discriminate.
    + exfalso. destruct (SH b B0 B1 Lb B3 B2) as (x & y & l & Q). destruct (concat_rows a Wa ltac:(lia)) as (row & rows & Q'). rewrite Q, Q' in E. discriminate.
    + apply blocks_inj in E; [|intros u Q; discriminate|apply lrows_plain, rows_valid, Va|apply lrows_plain, rows_valid, Vb]. apply lrows_inj in E; [|now apply rows_valid|now apply rows_valid]. apply rows_inj; auto. lia.
Qed.
End T.
(** ** entries: ints, and ints and LPolys in any mix *)
Definition okc (c : ascii) : Prop := c <> "," /\ c <> "]" /\ c <> "[".
Lemma digit_okc c : is_digit c \/ c = "-" -> okc c.
Proof. unfold is_digit, okc. cbn. intros [H| ->]; [|repeat split; discriminate]. intuition (subst; discriminate). Qed.
Lemma dec_plain n : plain (la (dec n)).
Proof. destruct (dec_chars n) as [F N]. split; [exact N|]. eapply Forall_impl; [|exact F]. exact digit_okc. Qed.
Lemma la_lit s : Forall okc (la s) -> forall t, Forall okc (la t) -> Forall okc (la (String.append s t)).
Proof. intros. rewrite la_app. now apply Forall_app. Qed.
Ltac lit := repeat constructor; discriminate.
Lemma fmt_chars p : Forall okc (la (lpoly_fmt false p)).
Proof.
  unfold lpoly_fmt. destruct (lcoeffs p) as [|c0 cs]; [lit|]. generalize (rev (enumerate (lval p) (c0 :: cs))) as l. generalize true as first. intros first l. revert first.
  induction l as [|[i c] l IH]; intros first; [constructor|]. cbn [render]. destruct (c =? 0)%Z; [apply IH|].
  assert (DC : forall n, Forall okc (la (dec n))) by (intros n; apply dec_plain).
  repeat apply la_lit; [| | |apply IH].
  - unfold sign_str. destruct ((0 <? c) && negb first)%Z; [lit|]. destruct ((c <? 0) && negb first)%Z; [lit|]. destruct (0 <? c)%Z; lit.
  - unfold lpoly_coeff. destruct (i =? 0)%Z; [apply DC|]. destruct (Z.abs c =? 1)%Z; [lit|apply DC].
  - unfold lpoly_term. destruct (i =? 0)%Z; [lit|]. destruct (i =? 1)%Z; [lit|]. apply la_lit; [lit|apply DC].
Qed.
(** the entries are Python values: an int, or an LPoly the constructor returned *)
Definition entry_ok (x : num) : Prop := match x with NI _ => True | NL p => is_lpoly p end.
Lemma num_plain x : plain (la (num_repr x)).
Proof.
  destruct x as [n|p]; [apply dec_plain|]. cbn [num_repr]. unfold lpoly_repr. split; [cbn; discriminate|]. apply la_lit; [lit|]. apply la_lit; [apply fmt_chars|lit].
Qed.
Lemma num_repr_inj x y : entry_ok x -> entry_ok y -> num_repr x = num_repr y -> x = y.
Proof.
  assert (HD : forall n p, num_repr (NI n) <> num_repr (NL p)).
  { intros n p E. apply (f_equal la) in E. cbn [num_repr] in E. unfold lpoly_repr in E. destruct (dec_chars n) as [F N]. destruct (la (dec n)) as [|c u]; [contradiction|]. cbn in E. injection E as -> _. apply Forall_inv in F. unfold is_digit in F. cbn in F. intuition discriminate. }
  destruct x as [n|p], y as [m|q]; intros Hx Hy E; [f_equal; now apply dec_inj|exfalso; exact (HD _ _ E)|exfalso; exact (HD _ _ (eq_sym E))|]. f_equal. now apply C81_repr_injective.
Qed.
Theorem C111_repr (a b : mat num) : is_matrix a -> is_matrix b -> Forall entry_ok (mdata a) -> Forall entry_ok (mdata b) -> (mat_repr num_repr a = mat_repr num_repr b <-> a = b).
Proof. intros Wa Wb Va Vb. split; [|congruence]. apply (text_repr num_repr entry_ok num_repr_inj); auto. intros x _. apply num_plain. Qed.
Theorem C111_repr_int (a b : mat Z) : is_matrix a -> is_matrix b -> (mat_repr dec a = mat_repr dec b <-> a = b).
Proof. intros Wa Wb. split; [|congruence]. apply (text_repr dec (fun _ => True)); auto; try (apply Forall_forall; auto; fail); [intros; now apply dec_inj|intros x _; apply dec_plain]. Qed.
(** str loses the number of columns of a matrix without rows, and nothing else *)
Theorem C111_str (a b : mat num) : is_matrix a -> is_matrix b -> Forall entry_ok (mdata a) -> Forall entry_ok (mdata b) ->
  (mat_str num_repr a = mat_str num_repr b <-> a = b \/ (mrows a = 0 /\ mrows b = 0)).
Proof.
  intros Wa Wb Va Vb. split.
  - intros E. destruct (text_str num_repr entry_ok num_repr_inj (fun x _ => num_plain x) a b Wa Wb Va Vb E) as [E1 E2]. destruct (mrows a) eqn:Q; [right; auto|left]. apply E2. lia.
  - intros [->|[Ea Eb]]; [reflexivity|]. unfold mat_str, mat_rows. rewrite Ea, Eb. reflexivity.
Qed.
Example C111_case : let a := mkM 2 2 [NI 1; NL (mkL (-1) [2; -3]%Z); NI (-4); NI 0] in is_matrix a /\ Forall entry_ok (mdata a) /\
  mat_str num_repr a = "M[[1, LPoly('-3 + 2v^-1')], [-4, 0]]"%string /\ mat_repr dec (mkM 1 3 [1; -2; 3]%Z) = "Matrix([[1, -2, 3]])"%string /\ mat_repr dec (mkM 2 1 [1; -2]%Z) = "Matrix([[1], [-2]])"%string /\ mat_repr dec (mkM 5 0 []) = "Matrix(5, 0, [])"%string /\
  mat_repr dec (mkM 2 2 [1; 2; 3; 4]%Z) = String.append "Matrix([" (String.append nl (String.append "    [1, 2]," (String.append nl (String.append "    [3, 4]," (String.append nl "])")))))%string.
Proof.
  cbn zeta. split; [exists 2%Z, 2%Z, [NI 1; NL (mkL (-1) [2; -3]%Z); NI (-4); NI 0]; reflexivity|]. split; [|repeat split; reflexivity]. repeat constructor. exists (-1)%Z, [2; -3]%Z. reflexivity.
Qed.
