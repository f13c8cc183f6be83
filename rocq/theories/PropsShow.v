(** PropsShow.v – property C124: what the LaTeX displays determine. *)
From Verif Require Import Base ModelPerm ModelPoly ModelRepr ModelText ModelMatrix ModelBraid ModelNPar ModelShow SpecBraid SpecPerm SpecPoly PropsPerm2 PropsRepr.
From Coq Require Import String Ascii List.
Import ListNotations.
Local Open Scope char_scope.
Local Open Scope list_scope.
Local Open Scope nat_scope.

(** ** joined lists of codes *)
Fixpoint jn (sep : list ascii) (l : list (list ascii)) : list ascii :=
  match l with
  | [] => []
  | [x] => x
  | x :: l' => x ++ sep ++ jn sep l'
  end.
Lemma la_jn sep l : la (join sep l) = jn (la sep) (map la l).
Proof. induction l as [|x [|y l] IH]; [reflexivity|reflexivity|]. cbn [join map jn] in *. rewrite !la_app. now rewrite IH. Qed.
Section Join.
Context {A : Type} (f : A -> list ascii) (V : A -> Prop) (sep : list ascii) (T E : list ascii -> Prop).
Hypothesis H1 : forall a b x y, V a -> V b -> T x -> T y -> f a ++ x = f b ++ y -> a = b /\ x = y.
Hypothesis H2 : forall x, T (sep ++ x).
Hypothesis H3 : forall x, E x -> T x.
Hypothesis H4 : forall x y, E x -> x <> sep ++ y.
Hypothesis H5 : forall a x y, V a -> E x -> x <> f a ++ y.
Let jt (l : list A) : list ascii := concat (map (fun a => sep ++ f a) l).
Lemma jn_jt a l : jn sep (map f (a :: l)) = f a ++ jt l.
Proof using. revert a. induction l as [|b l IH]; intros a; [cbn; now rewrite app_nil_r|]. cbn [map jn] in *. rewrite IH. unfold jt. cbn [map concat]. now rewrite <- app_assoc. Qed.
Lemma jt_T l x : E x -> T (jt l ++ x).
Proof using H2 H3. intros Hx. destruct l as [|a l]; [now apply H3|]. unfold jt. cbn [map concat]. rewrite <- !app_assoc. apply H2. Qed.
Lemma jt_inj' l1 : forall l2 x y, Forall V l1 -> Forall V l2 -> E x -> E y -> jt l1 ++ x = jt l2 ++ y -> l1 = l2 /\ x = y.
Proof using H1 H2 H3 H4.
  induction l1 as [|a l1 IH]; intros [|b l2] x y F1 F2 Ex Ey Q.
  - now split.
  - exfalso. unfold jt in Q. cbn [map concat app] in Q. rewrite <- !app_assoc in Q. exact (H4 _ _ Ex Q).
  - exfalso. unfold jt in Q. cbn [map concat app] in Q. rewrite <- !app_assoc in Q. exact (H4 _ _ Ey (eq_sym Q)).
  - inversion F1; inversion F2; subst. unfold jt in Q. cbn [map concat] in Q. rewrite <- !app_assoc in Q. apply app_inv_head in Q.
    fold (jt l1) in Q. fold (jt l2) in Q. apply H1 in Q; auto using jt_T. destruct Q as [-> Q]. apply IH in Q; auto. destruct Q as [-> ->]. now split.
Qed.
Lemma jn_inj l1 l2 x y : Forall V l1 -> Forall V l2 -> E x -> E y -> jn sep (map f l1) ++ x = jn sep (map f l2) ++ y -> l1 = l2 /\ x = y.
Proof using H1 H2 H3 H4 H5.
  intros F1 F2 Ex Ey Q. destruct l1 as [|a l1], l2 as [|b l2].
  - now split.
  - exfalso. rewrite jn_jt, <- app_assoc in Q. inversion F2; subst. eapply H5; [| |exact Q]; auto.
  - exfalso. rewrite jn_jt, <- app_assoc in Q. inversion F1; subst. eapply H5; [| |exact (eq_sym Q)]; auto.
  - rewrite !jn_jt, <- !app_assoc in Q. inversion F1; inversion F2; subst. apply H1 in Q; auto using jt_T. destruct Q as [-> Q]. apply jt_inj' in Q; auto. destruct Q as [-> ->]. now split.
Qed.
End Join.

(** ** numbers *)
Definition nodigit (x : list ascii) : Prop := exists c t, x = c :: t /\ ~ is_digit c /\ c <> "-".
Lemma dec_code a b x y : nodigit x -> nodigit y -> la (dec a) ++ x = la (dec b) ++ y -> a = b /\ x = y.
Proof.
  intros (c & t & -> & N1) (d & u & -> & N2) Q.
  destruct (split_at (fun c => ~ (is_digit c \/ c = "-")) _ _ _ _ Q) as [Q1 Q2].
  - eapply Forall_impl; [|apply (dec_chars a)]. intros e H K. contradiction.
  - eapply Forall_impl; [|apply (dec_chars b)]. intros e H K. contradiction.
  - right. exists c, t. split; [reflexivity|tauto].
  - right. exists d, u. split; [reflexivity|tauto].
  - split; [now apply dec_inj, la_inj|exact Q2].
Qed.
Lemma decn_code a b x y : nodigit x -> nodigit y -> la (decn a) ++ x = la (decn b) ++ y -> a = b /\ x = y.
Proof. intros Hx Hy Q. apply dec_code in Q; auto. destruct Q as [Q ->]. split; [lia|reflexivity]. Qed.
Ltac nodig := eexists; eexists; split; [reflexivity|split; [unfold is_digit; cbn; intuition discriminate|discriminate]].
Lemma decn_head a : exists c t, la (decn a) = c :: t /\ is_digit c.
Proof. destruct (dec_digits (Z.of_nat a) ltac:(lia)) as [F N]. unfold decn. destruct (la (dec (Z.of_nat a))) as [|c t]; [contradiction|]. inversion F; subst. eauto. Qed.

(** ** permutations *)
Definition letter_text (i : nat) : list ascii := la "s_{" ++ la (decn i) ++ la "}".
Lemma letter_code a b x y : letter_text a ++ x = letter_text b ++ y -> a = b /\ x = y.
Proof.
  unfold letter_text. intros Q. rewrite <- !app_assoc in Q. apply app_inv_head in Q. apply decn_code in Q; [|nodig|nodig].
  destruct Q as [-> Q]. apply app_inv_head in Q. now split.
Qed.
(** the text between the dollars *)
Definition word_text (u : list nat) : list ascii :=
  match u with [] => la "\mathrm{id}" | _ => jn (la " ") (map letter_text u) end.
Definition stops (x : list ascii) : Prop := exists c t, x = c :: t /\ (c = "," \/ c = ")" \/ c = "$").
Lemma word_code u v x y : stops x -> stops y -> word_text u ++ x = word_text v ++ y -> u = v /\ x = y.
Proof.
  intros Sx Sy Q. destruct u as [|i u], v as [|j v].
  - apply app_inv_head in Q. now split.
  - exfalso. unfold word_text in Q. rewrite jn_jt in Q. unfold letter_text in Q. discriminate Q.
  - exfalso. unfold word_text in Q. rewrite jn_jt in Q. unfold letter_text in Q. discriminate Q.
  - unfold word_text in Q. apply (jn_inj letter_text (fun _ => True) (la " ") (fun _ => True) stops) in Q; auto.
    + intros a b x0 y0 _ _ _ _. apply letter_code.
    + intros x0 y0 (c & t & -> & H) Q0. cbn in Q0. injection Q0 as -> _. intuition discriminate.
    + intros a x0 y0 _ (c & t & -> & H) Q0. unfold letter_text in Q0. cbn in Q0. injection Q0 as -> _. intuition discriminate.
    + apply Forall_forall; auto.
    + apply Forall_forall; auto.
Qed.
Definition solid (l : list ascii) : Prop := exists c t t' d, l = c :: t /\ l = t' ++ [d] /\ c <> "$" /\ d <> "$".
Lemma lstrip_solid c t : c <> "$" -> lstrip (c :: t) = c :: t.
Proof. intros H. cbn. destruct (Ascii.eqb_spec c "$"); [contradiction|reflexivity]. Qed.
Lemma strip_solid s b : la s = "$" :: b ++ ["$"] -> solid b -> la (strip_dollar s) = b.
Proof.
  intros Hs (c & t & t' & d & E1 & E2 & Hc & Hd). unfold strip_dollar. rewrite list_ascii_of_string_of_list_ascii, Hs.
  change (lstrip ("$" :: b ++ ["$"])) with (lstrip (b ++ ["$"])). rewrite E1 at 1. cbn [app]. rewrite lstrip_solid by exact Hc.
  change (c :: t ++ ["$"]) with ((c :: t) ++ ["$"]). rewrite <- E1. rewrite rev_app_distr. cbn [rev app].
  change (lstrip ("$" :: rev b)) with (lstrip (rev b)). rewrite E2 at 1. rewrite rev_app_distr. cbn [rev app]. rewrite lstrip_solid by exact Hd.
  change (d :: rev t') with (rev [d] ++ rev t'). rewrite <- rev_app_distr, rev_involutive. now symmetry.
Qed.
Lemma word_solid u : solid (word_text u).
Proof.
  assert (K : forall u, u <> [] -> exists t, jn (la " ") (map letter_text u) = t ++ ["}"]).
  { induction u0 as [|i [|j u0] IH]; intros N; [contradiction| |].
    - exists (la "s_{" ++ la (decn i)). rewrite <- app_assoc. reflexivity.
    - destruct (IH ltac:(discriminate)) as [t Q]. cbn [map jn] in *. rewrite Q. exists (letter_text i ++ la " " ++ t). now rewrite <- !app_assoc. }
  destruct u as [|i u].
  - exists "\", (la "mathrm{id}"), (la "\mathrm{id"), "}". repeat split; discriminate.
  - destruct (K (i :: u) ltac:(discriminate)) as [t Q]. unfold word_text. rewrite jn_jt. unfold letter_text at 1. rewrite <- app_assoc.
    exists "s", (la "_{" ++ (la (decn i) ++ la "}") ++ concat (map (fun a => la " " ++ letter_text a) u)), t, "}".
    split; [reflexivity|]. split; [|split; discriminate]. rewrite <- Q, jn_jt. reflexivity.
Qed.
Lemma is_identity_iff w : is_identity w = true <-> w = seq 0 (length w).
Proof.
  unfold is_identity. rewrite forallb_forall. split.
  - intros H. apply (nth_ext _ _ 0 0); [now rewrite seq_length|]. intros i Hi. rewrite seq_nth by exact Hi. apply Nat.eqb_eq, H, in_seq. lia.
  - intros H i Hi. apply in_seq in Hi. apply Nat.eqb_eq. rewrite H, seq_nth by lia. lia.
Qed.
Lemma perm_text n w : is_perm_word n w -> exists u s, from_cox n u = Ok w /\ perm_latex w = Ok s /\ la s = "$" :: word_text u ++ ["$"].
Proof.
  intros Hw. destruct (C07_shortlex n w Hw) as (u & E & C & L & M). unfold perm_latex. destruct (is_identity w) eqn:I.
  - exists [], "$\mathrm{id}$"%string. apply is_identity_iff in I. assert (Lw : length w = n) by (apply Permutation.Permutation_length in Hw; now rewrite seq_length in Hw). split; [|split; reflexivity].
    rewrite I, Lw. reflexivity.
  - exists u. assert (u <> []). { intros ->. cbn in C. injection C as C. assert (K : is_identity w = true). { apply is_identity_iff. rewrite <- C. unfold identity. now rewrite seq_length. } congruence. }
    eexists. split; [exact C|]. rewrite E. cbn [bind]. split; [reflexivity|]. rewrite !la_app, la_jn. destruct u as [|i u]; [contradiction|]. unfold word_text.
    rewrite map_map. cbn [la app]. do 3 f_equal. apply map_ext. intros j. unfold letter_text. now rewrite !la_app.
Qed.
Theorem C124_permutation n x y : is_perm_word n x -> is_perm_word n y ->
  exists s t, perm_latex x = Ok s /\ perm_latex y = Ok t /\ (s = t <-> x = y).
Proof.
  intros Hx Hy. destruct (perm_text n x Hx) as (u & s & C & E & L), (perm_text n y Hy) as (v & t & C' & E' & L').
  exists s, t. split; [exact E|]. split; [exact E'|]. split; [|congruence]. intros ->. rewrite L in L'. injection L' as Q.
  apply (word_code u v ["$"] ["$"]) in Q; [|do 2 eexists; split; [reflexivity|tauto]|do 2 eexists; split; [reflexivity|tauto]]. destruct Q as [-> _]. congruence.
Qed.
Example C124_permutation_case : perm_latex [2; 0; 1] = Ok "$s_{1} s_{0}$"%string /\ perm_latex [0; 1; 2] = Ok "$\mathrm{id}$"%string.
Proof. split; reflexivity. Qed.
(** the number of points is not shown *)
Example C124_permutation_size : perm_latex [1; 0] = perm_latex [1; 0; 2]. Proof. reflexivity. Qed.
