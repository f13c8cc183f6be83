(** PropsRepr.v – property C20 (and C81): what the printed forms determine. *)
From Verif Require Import Base ModelPoly ModelRepr SpecPoly PolyTheory PolyDiv PropsPoly.
From Coq Require Import String Ascii DecimalString DecimalZ DecimalPos DecimalFacts.
From Coq Require Import List.
Import ListNotations.
Local Open Scope char_scope.
Local Open Scope list_scope.
Local Open Scope Z_scope.

Notation la := list_ascii_of_string.
Lemma la_app a b : la (String.append a b) = la a ++ la b.
Proof. induction a as [|c a IH]; [reflexivity|]. cbn. now rewrite IH. Qed.
Lemma la_inj a b : la a = la b -> a = b.
Proof. intros H. rewrite <- (string_of_list_ascii_of_string a), <- (string_of_list_ascii_of_string b). now rewrite H. Qed.
Lemma la_length a : List.length (la a) = String.length a.
Proof. induction a; cbn; congruence. Qed.

(** characters of a decimal representation *)
Definition is_digit (c : ascii) : Prop := In c ["0"; "1"; "2"; "3"; "4"; "5"; "6"; "7"; "8"; "9"].
Lemma uint_digits u : Forall is_digit (la (NilEmpty.string_of_uint u)).
Proof. induction u; cbn; constructor; auto; unfold is_digit; cbn; tauto. Qed.
Lemma nz_digits u : Forall is_digit (la (NilZero.string_of_uint u)) /\ la (NilZero.string_of_uint u) <> [].
Proof.
  destruct u; cbn [NilZero.string_of_uint]; (split; [|cbn; discriminate]); try apply uint_digits.
  cbn. constructor; [unfold is_digit; cbn; tauto|constructor].
Qed.
Lemma dec_digits n : 0 <= n -> Forall is_digit (la (dec n)) /\ la (dec n) <> [].
Proof. intros H. unfold dec. destruct n; [apply nz_digits| |lia]. cbn [Z.to_int NilZero.string_of_int]. apply nz_digits. Qed.
Lemma dec_chars n : Forall (fun c => is_digit c \/ c = "-") (la (dec n)) /\ la (dec n) <> [].
Proof.
  assert (K : forall u, Forall (fun c => is_digit c \/ c = "-") (la (NilZero.string_of_uint u))).
  { intros u. eapply Forall_impl; [|apply nz_digits]. auto. }
  unfold dec. destruct n; cbn [Z.to_int NilZero.string_of_int].
  - split; [apply K|apply nz_digits].
  - split; [apply K|apply nz_digits].
  - cbn. split; [|discriminate]. constructor; [now right|apply K].
Qed.
Lemma to_uint_nonnil p : Pos.to_uint p <> Decimal.Nil.
Proof. intros E. apply (Unsigned.to_uint_nonnil p). exact E. Qed.
Lemma dec_inj a b : dec a = dec b -> a = b.
Proof.
  intros H. unfold dec in H. apply DecimalZ.to_int_inj.
  assert (N : forall z, Z.to_int z <> Decimal.Pos Decimal.Nil /\ Z.to_int z <> Decimal.Neg Decimal.Nil).
  { intros [|p|p]; cbn; (split; [|]); try discriminate; intros E; injection E; apply to_uint_nonnil. }
  apply (f_equal NilZero.int_of_string) in H. rewrite !NilZero.isi in H by apply N. now injection H.
Qed.

(** splitting at the first character of a class *)
Lemma split_at {A} (P : A -> Prop) (a1 a2 b1 b2 : list A) :
  a1 ++ b1 = a2 ++ b2 -> Forall (fun c => ~ P c) a1 -> Forall (fun c => ~ P c) a2 ->
  (b1 = [] \/ exists c t, b1 = c :: t /\ P c) -> (b2 = [] \/ exists c t, b2 = c :: t /\ P c) -> a1 = a2 /\ b1 = b2.
Proof.
  revert a2. induction a1 as [|c a1 IH]; intros a2 E F1 F2 B1 B2.
  - destruct a2 as [|d a2]; [now split|exfalso]. cbn in E. apply Forall_inv in F2. destruct B1 as [->|[c [t [-> Pc]]]]; [discriminate|].
    injection E as -> _. contradiction.
  - destruct a2 as [|d a2]; cbn in E.
    + exfalso. apply Forall_inv in F1. destruct B2 as [->|[d [t [-> Pd]]]]; [discriminate|]. injection E as <- _. contradiction.
    + injection E as <- E. inversion F1; inversion F2; subst. destruct (IH a2 E) as [-> ->]; auto.
Qed.

(** ** rendering a list of (sign, body) *)
Definition body_ok (b : list ascii) : Prop := Forall (fun c => c <> " ") b /\ exists c t, b = c :: t /\ c <> "-".
Fixpoint rend (first : bool) (l : list (Z * list ascii)) : list ascii :=
  match l with [] => [] | (c, b) :: l' => la (sign_str first c) ++ b ++ rend false l' end.
Definition keys_ok (l : list (Z * list ascii)) := Forall (fun k => (fst k = 1 \/ fst k = -1) /\ body_ok (snd k)) l.
Lemma keys_inv c b l : keys_ok ((c, b) :: l) -> ((c = 1 \/ c = -1) /\ body_ok b) /\ keys_ok l.
Proof. intros H. inversion H as [|? ? K1 K2]; subst. now split. Qed.
Lemma rend_false_start l : keys_ok l -> rend false l = [] \/ exists c t, rend false l = c :: t /\ c = " ".
Proof.
  intros H. destruct l as [|[c b] l]; [now left|right]. apply keys_inv in H. destruct H as [[S _] _]. cbn [rend].
  destruct S as [-> | ->]; cbn; eauto.
Qed.
Lemma rend_tail_inj b1 b2 l1 l2 : body_ok b1 -> body_ok b2 -> keys_ok l1 -> keys_ok l2 ->
  b1 ++ rend false l1 = b2 ++ rend false l2 -> b1 = b2 /\ rend false l1 = rend false l2.
Proof.
  intros [B1 _] [B2 _] K1 K2 E. apply (split_at (fun c => c = " ") _ _ _ _ E); auto using rend_false_start.
Qed.
Lemma rend_false_inj l1 : forall l2, keys_ok l1 -> keys_ok l2 -> rend false l1 = rend false l2 -> l1 = l2.
Proof.
  induction l1 as [|[c1 b1] l1 IH]; intros [|[c2 b2] l2] K1 K2 E; [reflexivity| | |];
    try (apply keys_inv in K1; destruct K1 as [[S1 B1] K1']); try (apply keys_inv in K2; destruct K2 as [[S2 B2] K2']); cbn [rend] in E.
  - destruct S2 as [-> | ->]; discriminate.
  - destruct S1 as [-> | ->]; discriminate.
  - assert (c1 = c2 /\ b1 ++ rend false l1 = b2 ++ rend false l2) as [<- E'].
    { destruct S1 as [-> | ->], S2 as [-> | ->]; cbn in E; try discriminate; injection E as E; auto. }
    destruct (rend_tail_inj _ _ _ _ B1 B2 K1' K2' E') as [<- E'']. rewrite (IH l2); auto.
Qed.
Lemma rend_true_inj l1 l2 : keys_ok l1 -> keys_ok l2 -> rend true l1 = rend true l2 -> l1 = l2.
Proof.
  destruct l1 as [|[c1 b1] l1], l2 as [|[c2 b2] l2]; intros K1 K2 E; [reflexivity| | |];
    try (apply keys_inv in K1; destruct K1 as [[S1 B1] K1']); try (apply keys_inv in K2; destruct K2 as [[S2 B2] K2']); cbn [rend] in E.
  - destruct B2 as [_ [c [t [-> N]]]]. destruct S2 as [-> | ->]; discriminate.
  - destruct B1 as [_ [c [t [-> N]]]]. destruct S1 as [-> | ->]; discriminate.
  - assert (c1 = c2 /\ b1 ++ rend false l1 = b2 ++ rend false l2) as [<- E'].
    { destruct B1 as [_ [x1 [t1 [-> N1]]]], B2 as [_ [x2 [t2 [-> N2]]]].
      destruct S1 as [-> | ->], S2 as [-> | ->]; cbn in E |- *.
      - auto.
      - injection E as -> _. contradiction.
      - injection E as <- _. contradiction.
      - injection E as -> E. split; [reflexivity|]. now rewrite E. }
    destruct (rend_tail_inj _ _ _ _ B1 B2 K1' K2' E') as [<- E'']. now rewrite (rend_false_inj l1 l2).
Qed.

(** the printed terms *)
Definition nonzero_terms (l : list (Z * Z)) := filter (fun '(i, c) => negb (c =? 0)) l.
Definition key (coeff : Z -> Z -> string) (term : Z -> string) (t : Z * Z) : Z * list ascii :=
  (Z.sgn (snd t), la (coeff (fst t) (snd t)) ++ la (term (fst t))).
Lemma sign_sgn first c : c <> 0 -> sign_str first c = sign_str first (Z.sgn c).
Proof. intros H. unfold sign_str. destruct c; try contradiction; reflexivity. Qed.
Lemma render_rend coeff term l : forall first,
  la (render coeff term first l) = rend first (map (key coeff term) (nonzero_terms l)).
Proof.
  induction l as [|[i c] l IH]; intros first; [reflexivity|]. cbn [render nonzero_terms filter].
  destruct (Z.eqb_spec c 0) as [->|N]; cbn [negb]; [apply IH|]. cbn [map rend key fst snd].
  rewrite !la_app, <- sign_sgn, IH by exact N. now rewrite <- !app_assoc.
Qed.

(** one body: coefficient then power *)
Definition pw_str (x : ascii) (i : Z) (tail : Z -> list ascii) : list ascii :=
  if i =? 0 then [] else if i =? 1 then [x] else x :: tail i.
Definition co_str (i c : Z) : list ascii := if Z.abs c =? 1 then (if i =? 0 then ["1"] else []) else la (dec (Z.abs c)).
Lemma dec1 : la (dec 1) = ["1"]. Proof. reflexivity. Qed.
Lemma digit_not x : is_digit x -> x <> " " /\ x <> "-" /\ x <> "v" /\ x <> "x".
Proof. intros H. unfold is_digit in H. cbn in H. repeat (destruct H as [<-|H]; [repeat split; discriminate|]). contradiction. Qed.
Lemma co_digits i c : Forall is_digit (co_str i c).
Proof.
  unfold co_str. destruct (Z.abs c =? 1); [destruct (i =? 0); repeat constructor; unfold is_digit; cbn; tauto|]. apply dec_digits. lia.
Qed.
Lemma pw_start x i tail : pw_str x i tail = [] \/ exists d t, pw_str x i tail = d :: t /\ d = x.
Proof. unfold pw_str. destruct (i =? 0); [now left|right]. destruct (i =? 1); eauto. Qed.
Lemma body_good x i c tail : x <> " " -> x <> "-" -> (forall j, Forall (fun a => a <> " ") (tail j)) -> body_ok (co_str i c ++ pw_str x i tail).
Proof.
  intros X1 X2 T. split.
  - apply Forall_app. split.
    + eapply Forall_impl; [|apply co_digits]. intros a Ha. now apply digit_not in Ha.
    + unfold pw_str. destruct (i =? 0); [constructor|]. destruct (i =? 1); constructor; auto.
  - unfold co_str, pw_str. destruct (Z.abs c =? 1).
    + destruct (i =? 0); [cbn; exists "1", []; split; [reflexivity|discriminate]|]. destruct (i =? 1); cbn; eauto.
    + destruct (dec_digits (Z.abs c) ltac:(lia)) as [D N]. destruct (la (dec (Z.abs c))) as [|d l]; [contradiction|].
      inversion D; subst. exists d, (l ++ (if i =? 0 then [] else if i =? 1 then [x] else x :: tail i)). split; [reflexivity|]. now apply digit_not.
Qed.
Lemma body_inj x i c j d tail : (x = "v" \/ x = "x") -> c <> 0 -> d <> 0 ->
  (forall i j, tail i = tail j -> i = j) -> (forall i, tail i <> []) ->
  co_str i c ++ pw_str x i tail = co_str j d ++ pw_str x j tail -> i = j /\ Z.abs c = Z.abs d.
Proof.
  intros X Nc Nd T1 T2 E.
  destruct (split_at (fun a => a = x) _ _ _ _ E) as [E1 E2]; auto using pw_start.
  1, 2: eapply Forall_impl; [|apply co_digits]; intros a Ha; apply digit_not in Ha; destruct X as [-> | ->]; tauto.
  assert (i = j).
  { unfold pw_str in E2. destruct (Z.eqb_spec i 0), (Z.eqb_spec j 0); try lia.
    - destruct (j =? 1); discriminate.
    - destruct (i =? 1); discriminate.
    - destruct (Z.eqb_spec i 1), (Z.eqb_spec j 1); try lia.
      + injection E2 as E2. symmetry in E2. now apply T2 in E2.
      + injection E2 as E2. now apply T2 in E2.
      + injection E2 as E2. now apply T1. }
  subst j. split; [reflexivity|]. unfold co_str in E1.
  assert (D1 : forall n, 0 <= n -> la (dec n) = ["1"] -> n = 1) by (intros n _ H; apply dec_inj, la_inj; now rewrite H).
  destruct (Z.eqb_spec (Z.abs c) 1), (Z.eqb_spec (Z.abs d) 1); try lia.
  - destruct (i =? 0); symmetry in E1; [apply D1 in E1; lia|]. now apply dec_digits in E1; [|lia].
  - destruct (i =? 0); [apply D1 in E1; lia|]. now apply dec_digits in E1; [|lia].
  - apply la_inj, dec_inj in E1. exact E1.
Qed.
Lemma abs_sgn_eq c d : Z.abs c = Z.abs d -> Z.sgn c = Z.sgn d -> c = d. Proof. lia. Qed.

(** reading the coefficients back from the terms *)
Fixpoint tsum (l : list (Z * Z)) (g : Z -> Z) : Z := match l with [] => 0 | (i, c) :: l' => c * g i + tsum l' g end.
Lemma tsum_app a b g : tsum (a ++ b) g = tsum a g + tsum b g.
Proof. induction a as [|[i c] a IH]; cbn; [lia|]. rewrite IH. lia. Qed.
Lemma tsum_nonzero l g : tsum (nonzero_terms l) g = tsum l g.
Proof. unfold nonzero_terms. induction l as [|[i c] l IH]; cbn; [lia|]. destruct (Z.eqb_spec c 0) as [->|]; cbn; rewrite IH; lia. Qed.
Lemma tsum_rev l g : tsum (rev l) g = tsum l g.
Proof. induction l as [|[i c] l IH]; cbn; [lia|]. rewrite tsum_app, IH. cbn. lia. Qed.
Lemma tsum_enum cs : forall v g, tsum (enumerate v cs) g = lin v cs g.
Proof. induction cs as [|c cs IH]; intros v g; cbn; [lia|]. now rewrite IH. Qed.
Lemma terms_inj v cs w ds : nonzero_terms (rev (enumerate v cs)) = nonzero_terms (rev (enumerate w ds)) ->
  forall g, lin v cs g = lin w ds g.
Proof.
  intros E g. rewrite <- !tsum_enum, <- (tsum_rev (enumerate v cs)), <- (tsum_rev (enumerate w ds)), <- (tsum_nonzero (rev (enumerate v cs))), <- (tsum_nonzero (rev (enumerate w ds))).
  now rewrite E.
Qed.
Lemma map_inj_on {A B} (f : A -> B) (P : A -> Prop) l1 : forall l2, (forall a b, P a -> P b -> f a = f b -> a = b) ->
  Forall P l1 -> Forall P l2 -> map f l1 = map f l2 -> l1 = l2.
Proof.
  induction l1 as [|a l1 IH]; intros [|b l2] H F1 F2 E; try discriminate; [reflexivity|]. cbn in E. injection E as E1 E2.
  inversion F1; inversion F2; subst. f_equal; auto.
Qed.
Lemma nonzero_Forall l : Forall (fun t => snd t <> 0) (nonzero_terms l).
Proof. apply Forall_forall. intros [i c] H. apply filter_In in H. destruct H as [_ H]. cbn. destruct (Z.eqb_spec c 0); [discriminate|auto]. Qed.

(** ** LPoly *)
Definition ltail (latex : bool) (i : Z) : list ascii :=
  if latex then "^" :: "{" :: la (dec i) ++ ["}"] else "^" :: la (dec i).
Lemma lkey latex i c : c <> 0 -> key lpoly_coeff (lpoly_term latex) (i, c) = (Z.sgn c, co_str i c ++ pw_str "v" i (ltail latex)).
Proof.
  intros N. unfold key. cbn [fst snd]. f_equal. f_equal.
  - unfold lpoly_coeff, co_str. destruct (i =? 0).
    + destruct (Z.eqb_spec (Z.abs c) 1) as [->|]; [apply dec1|reflexivity].
    + now destruct (Z.abs c =? 1).
  - unfold lpoly_term, pw_str, ltail. destruct (i =? 0); [reflexivity|]. destruct (i =? 1); [reflexivity|].
    destruct latex; cbn [String.append list_ascii_of_string]; rewrite ?la_app; reflexivity.
Qed.
Lemma dec_no_space i : Forall (fun a => a <> " ") (la (dec i)).
Proof. eapply Forall_impl; [|apply dec_chars]. intros a [H| ->]; [now apply digit_not in H|discriminate]. Qed.
Lemma ltail_ok latex : (forall j, Forall (fun a => a <> " ") (ltail latex j)) /\ (forall i j, ltail latex i = ltail latex j -> i = j) /\ (forall i, ltail latex i <> []).
Proof.
  unfold ltail. destruct latex; (split; [|split]).
  - intros j. repeat (constructor; [discriminate|]). apply Forall_app. split; [apply dec_no_space|]. constructor; [discriminate|constructor].
  - intros i j E. injection E as E. apply app_inv_tail in E. now apply dec_inj, la_inj.
  - discriminate.
  - intros j. constructor; [discriminate|]. apply dec_no_space.
  - intros i j E. injection E as E. now apply dec_inj, la_inj.
  - discriminate.
Qed.
Lemma lkeys_ok latex l : keys_ok (map (key lpoly_coeff (lpoly_term latex)) (nonzero_terms l)).
Proof.
  apply Forall_forall. intros [s b] H. apply in_map_iff in H. destruct H as [[i c] [E H]].
  pose proof (proj1 (Forall_forall _ _) (nonzero_Forall l) _ H) as N. cbn in N. rewrite lkey in E by exact N. injection E as <- <-.
  split; [destruct c; cbn; auto; contradiction|]. apply body_good; try discriminate. apply ltail_ok.
Qed.
Lemma lfmt_nonzero latex p : lcanon p -> lcoeffs p <> [] -> lpoly_fmt latex p <> "0"%string.
Proof.
  intros [_ C] N E. destruct (C N) as [_ L]. unfold lpoly_fmt in E. destruct (lcoeffs p) as [|c0 cs] eqn:Ec; [contradiction|]. rewrite <- Ec in *. clear N C.
  apply (f_equal la) in E. rewrite render_rend in E.
  destruct (nonzero_terms (rev (enumerate (lval p) (lcoeffs p)))) as [|[i c] l] eqn:T; [discriminate|].
  assert (Nc : c <> 0). { pose proof (nonzero_Forall (rev (enumerate (lval p) (lcoeffs p)))) as F. rewrite T in F. now inversion F. }
  assert (F : keys_ok (map (key lpoly_coeff (lpoly_term latex)) ((i, c) :: l))) by (rewrite <- T; apply lkeys_ok).
  rewrite map_cons, lkey in E, F by exact Nc. cbn [rend] in E. apply keys_inv in F. destruct F as [[S B] K].
  destruct B as [B1 [x [t [B2 B3]]]].
  destruct S as [S|S]; rewrite S in E; cbn [sign_str Z.ltb Z.compare negb andb list_ascii_of_string app] in E.
  2: { change (la (sign_str true (-1))) with ["-"] in E. discriminate. }
  change (la (sign_str true 1)) with (@nil ascii) in E. cbn [app] in E.
  rewrite B2 in E. cbn [app] in E. injection E as -> E. apply app_eq_nil in E. destruct E as [-> _].
  unfold co_str, pw_str in B2. destruct (Z.eqb_spec (Z.abs c) 1).
  - destruct (i =? 0); [discriminate|]. destruct (i =? 1); discriminate.
  - destruct (i =? 0).
    + rewrite app_nil_r in B2. assert (Z.abs c = 0) by (apply dec_inj, la_inj; exact B2). lia.
    + exfalso. destruct (dec_digits (Z.abs c) ltac:(lia)) as [_ D]. destruct (la (dec (Z.abs c))) as [|d [|d' l']]; [contradiction| |discriminate].
      destruct (i =? 1); discriminate.
Qed.
(** C81: [fmt], in both modes, and [repr] determine the LPoly. *)
Theorem C81_fmt_injective latex p q : is_lpoly p -> is_lpoly q -> lpoly_fmt latex p = lpoly_fmt latex q -> p = q.
Proof.
  intros Hp Hq E. apply is_lpoly_canon in Hp, Hq.
  destruct (list_eq_dec Z.eq_dec (lcoeffs p) []) as [Ep|Np], (list_eq_dec Z.eq_dec (lcoeffs q) []) as [Eq|Nq].
  - destruct Hp as [A _], Hq as [B _]. specialize (A Ep). specialize (B Eq). destruct p, q; cbn in *; now subst.
  - exfalso. apply (lfmt_nonzero latex q Hq Nq). rewrite <- E. unfold lpoly_fmt. now rewrite Ep.
  - exfalso. apply (lfmt_nonzero latex p Hp Np). rewrite E. unfold lpoly_fmt. now rewrite Eq.
  - apply canon_eq; auto. apply leq_L. apply terms_inj.
    assert (F : forall r, lcoeffs r <> [] -> lpoly_fmt latex r = render lpoly_coeff (lpoly_term latex) true (rev (enumerate (lval r) (lcoeffs r)))).
    { intros r Nr. unfold lpoly_fmt. now destruct (lcoeffs r). }
    rewrite !F in E by assumption. apply (f_equal la) in E. rewrite !render_rend in E. apply rend_true_inj in E; auto using lkeys_ok.
    apply (map_inj_on _ (fun t => snd t <> 0) _ _) in E; auto using nonzero_Forall.
    intros [i c] [j d] N1 N2 K. cbn in N1, N2. rewrite !lkey in K by assumption. injection K as K1 K2.
    apply body_inj in K2; auto; [|apply ltail_ok|apply ltail_ok]. destruct K2 as [-> K2]. now rewrite (abs_sgn_eq c d).
Qed.
Theorem C81_repr_injective p q : is_lpoly p -> is_lpoly q -> lpoly_repr p = lpoly_repr q -> p = q.
Proof.
  intros Hp Hq E. apply (C81_fmt_injective false); auto. unfold lpoly_repr in E. apply (f_equal la) in E. rewrite !la_app in E.
  apply app_inv_head, app_inv_tail in E. now apply la_inj.
Qed.
Example C81_example : lpoly_repr (mkL (-2) [1; 0; 2; 0; -13]) = "LPoly('-13v^2 + 2 + v^-2')"%string
  /\ lpoly_fmt true (mkL (-2) [1; 0; 2; 0; -13]) = "-13v^{2} + 2 + v^{-2}"%string.
Proof. split; reflexivity. Qed.

(** ** Poly *)
(** C20 as stated is false: the constant term always prints as 1. *)
Theorem C20_refuted : exists p q, is_poly p /\ is_poly q /\ p <> q /\ poly_repr p = poly_repr q.
Proof. exists [2], [3]. repeat split; [now exists [2]|now exists [3]|discriminate]. Qed.
(** What the printed form does determine: every non-constant coefficient, and
    the sign of the constant one - and nothing more. *)
Definition pnorm (p : poly) : poly := match p with [] => [] | c :: t => Z.sgn c :: t end.
Definition ptail (i : Z) : list ascii := "^" :: la (dec i).
Lemma pkey i c : c <> 0 -> (i = 0 -> c = 1 \/ c = -1) -> key poly_coeff poly_term (i, c) = (Z.sgn c, co_str i c ++ pw_str "x" i ptail).
Proof.
  intros N S. unfold key. cbn [fst snd]. f_equal. f_equal.
  - unfold poly_coeff, co_str. destruct (Z.eqb_spec i 0) as [->|].
    + destruct (S eq_refl) as [-> | ->]; reflexivity.
    + now destruct (Z.abs c =? 1).
  - unfold poly_term, pw_str, ptail. destruct (i =? 0); [reflexivity|]. destruct (i =? 1); reflexivity.
Qed.
Lemma ptail_ok : (forall j, Forall (fun a => a <> " ") (ptail j)) /\ (forall i j, ptail i = ptail j -> i = j) /\ (forall i, ptail i <> []).
Proof.
  unfold ptail. split; [|split; [|discriminate]].
  - intros j. constructor; [discriminate|]. apply dec_no_space.
  - intros i j E. injection E as E. now apply dec_inj, la_inj.
Qed.
Lemma enum_ge {A} (l : list A) : forall v, Forall (fun t => v <= fst t) (enumerate v l).
Proof.
  induction l as [|x l IH]; intros v; cbn; constructor; [cbn; lia|]. eapply Forall_impl; [|apply IH]. cbn. intros; lia.
Qed.
Lemma render_app coeff term a b first : render coeff term first (a ++ b) =
  String.append (render coeff term first a) (render coeff term (first && match nonzero_terms a with [] => true | _ => false end) b).
Proof.
  revert first. induction a as [|[i c] a IH]; intros first; cbn [app render nonzero_terms filter].
  - now rewrite andb_true_r.
  - destruct (Z.eqb_spec c 0) as [->|N]; cbn [negb]; [apply IH|]. rewrite IH. cbn [andb]. rewrite andb_false_r. apply la_inj. now rewrite !la_app, <- !app_assoc.
Qed.
Lemma render_pnorm p : render poly_coeff poly_term true (rev (enumerate 0 (pnorm p))) = render poly_coeff poly_term true (rev (enumerate 0 p)).
Proof.
  destruct p as [|c p]; [reflexivity|]. cbn [pnorm enumerate rev]. rewrite !render_app. f_equal. cbn [render].
  destruct c; [reflexivity| |]; cbn [Z.sgn]; f_equal; unfold sign_str; destruct (true && _); reflexivity.
Qed.
Definition small0 (p : poly) := pc p 0 = 1 \/ pc p 0 = -1 \/ pc p 0 = 0.
Lemma pnorm_small p : small0 (pnorm p).
Proof. destruct p as [|c p]; unfold small0, pc; cbn; [auto|]. destruct c; auto. Qed.
Lemma terms_small p t : small0 p -> In t (nonzero_terms (rev (enumerate 0 p))) -> snd t <> 0 /\ (fst t = 0 -> snd t = 1 \/ snd t = -1).
Proof.
  intros S H. apply filter_In in H. destruct t as [i c]. destruct H as [H N]. cbn [fst snd]. destruct (Z.eqb_spec c 0); [discriminate|].
  split; [assumption|]. intros ->. apply in_rev in H. destruct p as [|d p]; [contradiction|]. cbn [enumerate] in H.
  destruct H as [H|H]; [injection H as ->; unfold small0, pc in S; cbn in S; tauto|].
  pose proof (proj1 (Forall_forall _ _) (enum_ge p (0 + 1)) _ H) as K. cbn in K. lia.
Qed.
Lemma pkeys_ok p : small0 p -> keys_ok (map (key poly_coeff poly_term) (nonzero_terms (rev (enumerate 0 p)))).
Proof.
  intros S. apply Forall_forall. intros [s b] H. apply in_map_iff in H. destruct H as [[i c] [E H]].
  destruct (terms_small p _ S H) as [N K]. cbn in N, K. rewrite pkey in E by assumption. injection E as <- <-.
  split; [destruct c; cbn; auto; contradiction|]. apply body_good; try discriminate. apply ptail_ok.
Qed.
Lemma repr_small p q : small0 p -> small0 q ->
  render poly_coeff poly_term true (rev (enumerate 0 p)) = render poly_coeff poly_term true (rev (enumerate 0 q)) -> peq p q.
Proof.
  intros Sp Sq E. apply peq_P. apply terms_inj. apply (f_equal la) in E. rewrite !render_rend in E.
  apply rend_true_inj in E; auto using pkeys_ok.
  apply (map_inj_on _ (fun t => snd t <> 0 /\ (fst t = 0 -> snd t = 1 \/ snd t = -1)) _ _) in E; auto.
  - intros [i c] [j d] [N1 K1] [N2 K2] K. cbn in *. rewrite !pkey in K by assumption. injection K as A B.
    apply body_inj in B; auto; [|apply ptail_ok|apply ptail_ok]. destruct B as [-> B]. now rewrite (abs_sgn_eq c d).
  - apply Forall_forall. intros t. now apply terms_small.
  - apply Forall_forall. intros t. now apply terms_small.
Qed.
Lemma render_not0 p : render poly_coeff poly_term true (rev (enumerate 0 p)) <> "0"%string.
Proof.
  intros E. rewrite <- render_pnorm in E. pose proof (pnorm_small p) as S. set (q := pnorm p) in *. clearbody q.
  apply (f_equal la) in E. rewrite render_rend in E. pose proof (pkeys_ok q S) as F.
  pose proof (fun t => terms_small q t S) as TS.
  destruct (nonzero_terms (rev (enumerate 0 q))) as [|[i c] l] eqn:T; [discriminate|].
  destruct (TS (i, c) (or_introl eq_refl)) as [Nc K0]. cbn in Nc, K0.
  rewrite map_cons, pkey in E, F by assumption. cbn [rend] in E. apply keys_inv in F. destruct F as [[Sg B] K].
  destruct B as [B1 [x [t [B2 B3]]]].
  destruct Sg as [Sg|Sg]; rewrite Sg in E.
  2: { change (la (sign_str true (-1))) with ["-"] in E. discriminate. }
  change (la (sign_str true 1)) with (@nil ascii) in E. cbn [app] in E.
  rewrite B2 in E. cbn [app] in E. injection E as -> E. apply app_eq_nil in E. destruct E as [-> _].
  unfold co_str, pw_str in B2. destruct (Z.eqb_spec (Z.abs c) 1).
  - destruct (i =? 0); [discriminate|]. destruct (i =? 1); discriminate.
  - destruct (Z.eqb_spec i 0).
    + exfalso. destruct (K0 ltac:(assumption)); lia.
    + exfalso. destruct (dec_digits (Z.abs c) ltac:(lia)) as [_ D]. destruct (la (dec (Z.abs c))) as [|d [|d' l']]; [contradiction| |discriminate].
      destruct (i =? 1); discriminate.
Qed.
Theorem C20_repr_partial p q : is_poly p -> is_poly q ->
  (poly_repr p = poly_repr q <-> (forall i, (1 <= i)%nat -> nth i p 0 = nth i q 0) /\ Z.sgn (nth 0 p 0) = Z.sgn (nth 0 q 0)).
Proof.
  intros Hp Hq. apply is_poly_canon in Hp, Hq.
  assert (PR : forall r, r <> [] -> poly_repr r = String.append "Poly('" (String.append (render poly_coeff poly_term true (rev (enumerate 0 r))) "')")).
  { intros r N. unfold poly_repr. now destruct r. }
  assert (Inv : forall a b, String.append "Poly('" (String.append a "')") = String.append "Poly('" (String.append b "')") -> a = b).
  { intros a b E. apply (f_equal la) in E. rewrite !la_app in E. apply app_inv_head, app_inv_tail in E. now apply la_inj. }
  assert (Nz : forall r, r <> [] -> poly_repr r <> poly_repr []).
  { intros r N E. rewrite PR in E by exact N. change (poly_repr []) with (String.append "Poly('" (String.append "0" "')")) in E.
    apply Inv in E. now apply render_not0 in E. }
  assert (PN : forall r i, pc (pnorm r) i = if (i =? 0)%nat then Z.sgn (pc r 0) else pc r i) by (intros [|c r] [|i]; reflexivity).
  split.
  - intros E. assert (K : peq (pnorm p) (pnorm q)).
    { destruct (list_eq_dec Z.eq_dec p []) as [->|Np], (list_eq_dec Z.eq_dec q []) as [->|Nq]; [reflexivity| | |].
      - exfalso. now apply (Nz q Nq).
      - exfalso. now apply (Nz p Np).
      - rewrite !PR in E by assumption. apply Inv in E. apply repr_small; auto using pnorm_small. now rewrite !render_pnorm. }
    split.
    + intros i Hi. specialize (K i). rewrite !PN in K. destruct (Nat.eqb_spec i 0); [lia|exact K].
    + specialize (K O). rewrite !PN in K. exact K.
  - intros [H1 H2]. destruct p as [|c p], q as [|d q]; [reflexivity| | |].
    + exfalso. destruct Hq as [?|Hq]; [discriminate|]. apply Hq. rewrite (last_pc (d :: q)) by discriminate. cbn [List.length]. unfold pc.
      destruct q as [|e q].
      * cbn in H2 |- *. lia.
      * cbn [List.length]. replace (S (S (List.length q)) - 1)%nat with (S (List.length q)) by lia. exact (eq_sym (H1 (S (List.length q)) ltac:(lia))).
    + exfalso. destruct Hp as [?|Hp]; [discriminate|]. apply Hp. rewrite (last_pc (c :: p)) by discriminate. cbn [List.length]. unfold pc.
      destruct p as [|e p].
      * cbn in H2 |- *. lia.
      * cbn [List.length]. replace (S (S (List.length p)) - 1)%nat with (S (List.length p)) by lia. exact (H1 (S (List.length p)) ltac:(lia)).
    + rewrite !PR by discriminate. do 2 f_equal. rewrite <- render_pnorm, <- (render_pnorm (d :: q)). do 3 f_equal.
      cbn [pnorm]. cbn in H2. rewrite H2. f_equal.
      assert (LA : forall a r, pcanon (a :: r) -> pcanon r).
      { intros a r [?|L]; [discriminate|]. destruct r as [|b r]; [now left|right]. exact L. }
      apply pcanon_eq; eauto. intros i. exact (H1 (S i) ltac:(lia)).
Qed.
Example C20_example : poly_repr [-1; 0; 2] = "Poly('2x^2 - 1')"%string /\ poly_repr [7; 1] = "Poly('x + 1')"%string.
Proof. split; reflexivity. Qed.
