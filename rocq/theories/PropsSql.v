(** PropsSql.v – property C57: braids survive the trip through text. *)
From Verif Require Import Base ModelPerm ModelBraid ModelPoly ModelRepr PropsRepr ModelSql SpecBraid NFApi PropsGNF PermGerm.
From Coq Require Import String Ascii DecimalString DecimalZ DecimalPos DecimalFacts DecimalN.
From Coq Require Import List.
Import ListNotations.
Local Open Scope char_scope.
Local Open Scope list_scope.
Local Open Scope nat_scope.

(** ** numbers *)
Ltac each_ascii c := destruct c as [[] [] [] [] [] [] [] []].
Lemma is_dig_spec c : is_dig c = true <-> is_digit c.
Proof.
  unfold is_digit. split.
  - each_ascii c; cbn; intros H; try discriminate; tauto.
  - cbn. intros H. repeat (destruct H as [<-|H]; [reflexivity|]). destruct H.
Qed.
Definition nondig (s : list ascii) : Prop := match s with [] => True | c :: _ => is_dig c = false end.
Lemma digits_app d rest : Forall is_digit d -> nondig rest -> ModelSql.digits (d ++ rest) = (d, rest).
Proof.
  intros F N. induction F as [|c d Hc F IH]; cbn [app].
  - destruct rest as [|c t]; [reflexivity|]. cbn [ModelSql.digits]. cbn [nondig] in N. now rewrite N.
  - cbn [ModelSql.digits]. rewrite (proj2 (is_dig_spec c) Hc), IH. reflexivity.
Qed.
Lemma number_eq s d r u : ModelSql.digits s = (d, r) -> d <> [] -> (forall c x, d <> "0" :: c :: x) -> NilZero.uint_of_string (string_of_list_ascii d) = Some u -> number s = Ok (Z.of_uint u, r).
Proof.
  intros E N H U. unfold number. rewrite E. destruct d as [|c [|c' d']]; [congruence| |].
  - each_ascii c; rewrite U; reflexivity.
  - each_ascii c; try (rewrite U; reflexivity). exfalso. exact (H _ _ eq_refl).
Qed.
Lemma to_uint_lead p d : Pos.to_uint p = Decimal.D0 d -> d = Decimal.Nil.
Proof.
  intros E. pose proof (DecimalN.Unsigned.of_to (Npos p)) as H1. cbn [N.to_uint] in H1. pose proof (DecimalN.Unsigned.to_of (Pos.to_uint p)) as H2. rewrite H1 in H2. cbn [N.to_uint] in H2.
  rewrite E in H2. unfold Decimal.unorm in H2. destruct (Decimal.nzhead (Decimal.D0 d)) eqn:K; try discriminate; try (now injection H2).
  exfalso. exact (nzhead_nonzero _ _ K).
Qed.
Lemma number_pos z rest : (0 <= z)%Z -> nondig rest -> number (la (dec z) ++ rest) = Ok (z, rest).
Proof.
  intros H N. destruct (dec_digits z H) as [F Ne]. destruct z as [|p|p]; [| |lia].
  - apply (number_eq _ ["0"] rest (Decimal.D0 Decimal.Nil)); try reflexivity; try discriminate. now apply digits_app.
  - assert (Q : Pos.to_uint p <> Decimal.Nil) by apply to_uint_nonnil.
    assert (V : Z.of_uint (Pos.to_uint p) = Zpos p). { pose proof (DecimalZ.of_to (Zpos p)) as K. cbn [Z.to_int Z.of_int] in K. exact K. }
    rewrite <- V at 2. apply (number_eq _ (la (dec (Zpos p)))); [now apply digits_app|exact Ne| |].
    + intros c x E. unfold dec in E. cbn [Z.to_int NilZero.string_of_int] in E. destruct (Pos.to_uint p) as [|d|d|d|d|d|d|d|d|d|d] eqn:K; try discriminate E.
      apply to_uint_lead in K. subst d. discriminate E.
    + rewrite string_of_list_ascii_of_string. unfold dec. cbn [Z.to_int NilZero.string_of_int]. now apply NilZero.usu.
Qed.

(** ** the text of a value *)
Section PyInd.
Variable P : pyval -> Prop.
Hypothesis HI : forall z, P (PInt z).
Hypothesis HT : forall l, Forall P l -> P (PTup l).
Fixpoint py_ind (v : pyval) : P v :=
  match v with PInt z => HI z | PTup l => HT l ((fix go l : Forall P l := match l with [] => Forall_nil P | x :: t => Forall_cons x (py_ind x) (go t) end) l) end.
End PyInd.
Definition rest_str (t : list pyval) : list ascii := List.concat (map (fun y => "," :: " " :: py_str y) t).
Lemma py_str_tup x t : py_str (PTup (x :: t)) = "(" :: py_str x ++ rest_str t ++ (match t with [] => [","; ")"] | _ => [")"] end).
Proof.
  destruct t as [|y t]; [reflexivity|]. cbn [py_str]. do 2 f_equal. f_equal. cbn [rest_str map List.concat]. cbn [app]. do 3 f_equal.
  induction t as [|z t IH]; [reflexivity|]. cbn [rest_str map List.concat app]. do 3 f_equal. exact IH.
Qed.
Definition good_head (c : ascii) : Prop := is_dig c = true \/ c = "-" \/ c = "(".
Lemma py_head v : exists c s, py_str v = c :: s /\ good_head c.
Proof.
  destruct v as [z|[|x t]].
  - cbn [py_str]. destruct z as [|p|p].
    + exists "0", []. split; [reflexivity|left; reflexivity].
    + destruct (dec_digits (Zpos p) ltac:(lia)) as [F Ne]. destruct (la (dec (Zpos p))) as [|c s]; [congruence|]. exists c, s. split; [reflexivity|]. left. apply is_dig_spec. now inversion F.
    + eexists "-", _. split; [reflexivity|]. right. now left.
  - exists "(", [")"]. split; [reflexivity|]. right. now right.
  - rewrite py_str_tup. eexists "(", _. split; [reflexivity|]. right. now right.
Qed.
Lemma skip_good c s : good_head c -> skip (c :: s) = c :: s.
Proof. intros [H|[->| ->]]; [|reflexivity|reflexivity]. each_ascii c; try reflexivity; discriminate H. Qed.
Lemma good_close {B} c s (f : list ascii -> B) g : good_head c -> match c :: s with ")" :: u => f u | _ => g end = g.
Proof. intros [H|[->| ->]]; [|reflexivity|reflexivity]. each_ascii c; try reflexivity; discriminate H. Qed.
Lemma parse_dig f c s : is_dig c = true -> parse (S f) (c :: s) = ('(z, r) <- number (c :: s) ;; Ok (PInt z, r)).
Proof. intros H. cbn [parse]. rewrite skip_good by now left. each_ascii c; try discriminate H; reflexivity. Qed.
Lemma parse_neg f c s : is_dig c = true -> parse (S f) ("-" :: c :: s) = ('(z, r) <- number (c :: s) ;; Ok (PInt (- z), r)).
Proof. intros H. cbn [parse]. rewrite skip_good by (right; now left). rewrite skip_good by now left. reflexivity. Qed.
Lemma parse_blank f s : parse f (" " :: s) = parse f s. Proof. destruct f; reflexivity. Qed.
Lemma parse_open f c s : good_head c -> parse (S f) ("(" :: c :: s) = items f (c :: s) [].
Proof. intros H. cbn [parse]. rewrite skip_good by (right; now right). rewrite (skip_good c s H). destruct H as [H|[->| ->]]; [each_ascii c; try reflexivity; discriminate H|reflexivity|reflexivity]. Qed.
Lemma items_comma f s acc v c t : parse f s = Ok (v, "," :: " " :: c :: t) -> good_head c -> items (S f) s acc = items f (" " :: c :: t) (v :: acc).
Proof. intros E H. cbn [items]. rewrite E. cbn [bind]. change (skip ("," :: " " :: c :: t)) with ("," :: " " :: c :: t). cbv iota beta. change (skip (" " :: c :: t)) with (skip (c :: t)). rewrite (skip_good c t H). destruct H as [H|[->| ->]]; [each_ascii c; try reflexivity; discriminate H|reflexivity|reflexivity]. Qed.
Lemma items_close f s acc v t : parse f s = Ok (v, ")" :: t) -> items (S f) s acc = Ok (match acc with [] => v | _ => PTup (rev (v :: acc)) end, t).
Proof. intros E. cbn [items]. rewrite E. reflexivity. Qed.
Lemma items_last f s acc v t : parse f s = Ok (v, "," :: ")" :: t) -> items (S f) s acc = Ok (PTup (rev (v :: acc)), t).
Proof. intros E. cbn [items]. rewrite E. reflexivity. Qed.
Lemma py_len v : 1 <= List.length (py_str v). Proof. destruct (py_head v) as [c [s [-> _]]]. cbn [List.length]. lia. Qed.
Lemma parse_str v : forall rest fuel, nondig rest -> 2 * List.length (py_str v) <= fuel -> parse fuel (py_str v ++ rest) = Ok (v, rest).
Proof.
  induction v as [z|l IH] using py_ind; intros rest fuel N Hf; (destruct fuel as [|fuel]; [pose proof (py_len (PInt 0)); (try pose proof (py_len (PInt z))); (try pose proof (py_len (PTup l))); lia|]).
  - cbn [py_str] in *. destruct (Z.le_gt_cases 0 z) as [H|H].
    + destruct (dec_digits z H) as [F Ne]. pose proof (number_pos z rest H N) as K. destruct (la (dec z)) as [|c s] eqn:E; [congruence|]. cbn [app] in *.
      rewrite parse_dig by (apply is_dig_spec; now inversion F). rewrite K. reflexivity.
    + assert (E : la (dec z) = "-" :: la (dec (- z))) by (destruct z as [|p|p]; try lia; reflexivity).
      destruct (dec_digits (- z) ltac:(lia)) as [F Ne]. pose proof (number_pos (- z) rest ltac:(lia) N) as K. rewrite E. destruct (la (dec (- z))) as [|c s]; [congruence|]. cbn [app] in *.
      rewrite parse_neg by (apply is_dig_spec; now inversion F). rewrite K. cbn [bind]. now rewrite Z.opp_involutive.
  - destruct l as [|x t]; [reflexivity|].
    rewrite py_str_tup in *. cbn [app List.length] in *. rewrite !app_length in Hf.
    destruct (py_head x) as [c [s [Ex Hx]]]. rewrite <- app_assoc.
    assert (K : forall t x acc fuel b, Forall (fun v => forall rest fuel, nondig rest -> 2 * List.length (py_str v) <= fuel -> parse fuel (py_str v ++ rest) = Ok (v, rest)) (x :: t) -> (acc <> [] \/ t <> []) -> (b = [] \/ b = [" "]) ->
      2 * (List.length (py_str x) + List.length (rest_str t)) + 1 <= fuel -> items fuel (b ++ py_str x ++ (rest_str t ++ [")"]) ++ rest) acc = Ok (PTup (rev acc ++ x :: t), rest)).
    { clear. induction t as [|y t IHt]; intros x acc fuel b F A Hb Hf; inversion F as [|? ? Hx Ft]; subst; (destruct fuel as [|f]; [lia|]).
      - cbn [rest_str map List.concat List.length app] in *. rewrite (items_close f _ acc x rest).
        + destruct acc as [|a acc]; [destruct A; congruence|]. reflexivity.
        + destruct Hb as [->| ->]; cbn [app]; rewrite ?parse_blank; apply Hx; [reflexivity|lia|reflexivity|lia].
      - destruct (py_head y) as [c [s [Ey Hy]]].
        assert (Er : rest_str (y :: t) = "," :: " " :: py_str y ++ rest_str t) by reflexivity. rewrite Er in *. cbn [List.length] in Hf. rewrite app_length in Hf.
        rewrite (items_comma f _ acc x c (s ++ (rest_str t ++ [")"]) ++ rest)).
        + pose proof (IHt y (x :: acc) f [" "] Ft ltac:(left; discriminate) ltac:(now right) ltac:(lia)) as Q. rewrite Ey in Q. cbn [app] in Q. rewrite Q. cbn [rev]. rewrite <- app_assoc. reflexivity.
        + replace (" " :: c :: s ++ (rest_str t ++ [")"]) ++ rest) with (" " :: py_str y ++ (rest_str t ++ [")"]) ++ rest) by (rewrite Ey; reflexivity).
          rewrite <- !app_assoc. cbn [app]. rewrite <- !app_assoc. destruct Hb as [->| ->]; cbn [app]; rewrite ?parse_blank; apply Hx; try reflexivity; lia.
        + exact Hy. }
    destruct t as [|y t].
    + cbn [rest_str map List.concat app List.length] in *. rewrite Ex. cbn [app]. rewrite parse_open by exact Hx. destruct fuel as [|fuel]; [lia|]. apply (items_last fuel _ [] x rest). inversion IH as [|? ? Px _]; subst.
      specialize (Px ("," :: ")" :: rest) fuel eq_refl ltac:(lia)). rewrite Ex in Px. exact Px.
    + specialize (K (y :: t) x [] fuel [] IH ltac:(right; discriminate) ltac:(now left)). cbn [app rev] in K. cbn [List.length] in Hf. specialize (K ltac:(lia)). rewrite Ex in *. cbn [app] in *. rewrite parse_open by exact Hx. exact K.
Qed.
Theorem literal_eval_str v : literal_eval (py_str v) = Ok v.
Proof.
  unfold literal_eval. pose proof (parse_str v [] (2 * S (List.length (py_str v))) Logic.I ltac:(lia)) as K. rewrite app_nil_r in K. rewrite K. reflexivity.
Qed.

(** ** C57 *)
Section C57.
Context {A B : Type}.
Variable gtb : nat -> res (nftable A).
Variable dtb : nat -> res (nftable B).
Lemma construct_astuple c b : (match c with cGNF => mk gtb (o_n b) (o_pow b) (o_factors b) | cDGNF => mk dtb (o_n b) (o_pow b) (o_factors b) end) = Ok b -> construct gtb dtb c (astuple b) = Ok (c, b).
Proof.
  intros H. unfold construct, astuple. destruct (Z.leb_spec 0 (Z.of_nat (o_n b))); [|lia]. cbn [assert_ bind].
  assert (E : ints_of (map PInt (o_factors b)) = Ok (o_factors b)). { clear. unfold ints_of. induction (o_factors b) as [|x l IH]; [reflexivity|]. cbn [map mapM bind]. rewrite IH. reflexivity. }
  rewrite E. cbn [bind]. rewrite Nat2Z.id. destruct c; rewrite H; reflexivity.
Qed.
(** a value that the constructor of its class accepts comes back unchanged, as a
    value of the same class *)
Theorem C57_round_trip c n p f b : (match c with cGNF => mk gtb n p f | cDGNF => mk dtb n p f end) = Ok b -> convert_braid gtb dtb (adapt_braid c b) = Ok (c, b).
Proof.
  intros H. assert (Eb : b = NFObj n p f).
  { destruct c; unfold mk in H; [destruct (gtb n) as [t|]|destruct (dtb n) as [t|]]; cbn [bind] in H; try discriminate; destruct (is_factors_normalised t f) as [x|]; cbn [bind] in H; try discriminate; destruct x; cbn in H; congruence. }
  assert (H' : (match c with cGNF => mk gtb (o_n b) (o_pow b) (o_factors b) | cDGNF => mk dtb (o_n b) (o_pow b) (o_factors b) end) = Ok b) by (rewrite Eb; cbn [o_n o_pow o_factors]; congruence).
  unfold convert_braid, adapt_braid. destruct c; cbn [class_name app startswith]; repeat (destruct (ascii_dec _ _) as [_|Q]; [|exfalso; apply Q; reflexivity] || destruct (ascii_dec _ _) as [Q|_]; [discriminate Q|]); cbn [skipn]; rewrite literal_eval_str; cbn [bind]; now apply construct_astuple.
Qed.
(** different values have different texts *)
Theorem C57_injective c c' b b' : adapt_braid c b = adapt_braid c' b' -> c = c' /\ b = b'.
Proof.
  unfold adapt_braid. intros H. assert (E : c = c') by (destruct c, c'; cbn in H; congruence). split; [exact E|]. subst c'. apply app_inv_head in H.
  apply (f_equal literal_eval) in H. rewrite !literal_eval_str in H. injection H as H1 H2 H3. apply Nat2Z.inj in H1.
  assert (H4 : o_factors b = o_factors b'). { revert H3. generalize (o_factors b) (o_factors b'). induction l as [|x l IH]; intros [|y k] E; cbn [map] in E; try discriminate; [reflexivity|]. injection E as -> E. f_equal. now apply IH. }
  destruct b, b'. cbn in *. now subst.
Qed.
(** the text that search.py stores is str(astuple(braid)), without the name of
    the class: literal_eval reads it back as (n, power, factors), from which the
    constructor makes the same braid, but convert_braid refuses it *)
Theorem C57_search_text b : literal_eval (saved_text b) = Ok (astuple b) /\ convert_braid gtb dtb (saved_text b) = Err ValueError.
Proof.
  split; [apply literal_eval_str|]. unfold convert_braid, saved_text, astuple. rewrite py_str_tup. cbn [startswith]. destruct (ascii_dec "G" "(") as [Q|_]; [discriminate Q|]. destruct (ascii_dec "D" "(") as [Q|_]; [discriminate Q|]. reflexivity.
Qed.
(** text of another kind is refused *)
Theorem C57_other data : firstn 3 data <> ["G"; "N"; "F"] -> firstn 4 data <> ["D"; "G"; "N"; "F"] -> convert_braid gtb dtb data = Err ValueError.
Proof.
  intros H1 H2. assert (K : forall p s, startswith p s = true -> firstn (List.length p) s = p).
  { clear. induction p as [|c p IH]; intros s E; [reflexivity|]. destruct s as [|d s]; [discriminate|]. cbn [startswith] in E. destruct (ascii_dec c d) as [->|]; [|discriminate]. cbn [List.length firstn]. f_equal. now apply IH. }
  unfold convert_braid. destruct (startswith ["G"; "N"; "F"] data) eqn:E1; [apply K in E1; contradiction|]. destruct (startswith ["D"; "G"; "N"; "F"] data) eqn:E2; [apply K in E2; contradiction|]. reflexivity.
Qed.
End C57.
Definition text (s : string) : list ascii := list_ascii_of_string s.
Example C57_example : adapt_braid cGNF (NFObj 4 (-1) [2; 13]%Z) = text "GNF(4, -1, (2, 13))" /\ adapt_braid cGNF (NFObj 4 10 [2]%Z) = text "GNF(4, 10, (2,))" /\ adapt_braid cDGNF (NFObj 3 0 []) = text "DGNF(3, 0, ())"
  /\ literal_eval (text "( 3,-4 ,((5)), (6,), ()  ) ") = Ok (PTup [PInt 3; PInt (-4); PInt 5; PTup [PInt 6]; PTup []])%Z /\ literal_eval (text "(01, 2)") = Err ValueError.
Proof. repeat split; vm_compute; reflexivity. Qed.
Example C57_case : mk (gtb hdpick) 3 (-2) [2; 3; 2]%Z = Err AssertionError /\ mk (gtb hdpick) 3 (-2) [2; 2]%Z = Ok (NFObj 3 (-2) [2; 2]%Z) /\
  convert_braid (gtb hdpick) (gtb hdpick) (adapt_braid cGNF (NFObj 3 (-2) [2; 2]%Z)) = Ok (cGNF, NFObj 3 (-2) [2; 2]%Z).
Proof. repeat split; vm_compute; reflexivity. Qed.
