(** PropsShow2.v – properties C124 (normal forms, noncrossing partitions) and C125 (repr of a
    noncrossing partition). *)
From Verif Require Import Base ModelPerm ModelPoly ModelRepr ModelText ModelMatrix ModelBraid ModelNPar ModelShow SpecBraid SpecPerm SpecTL NFApi NParBlocks NParMatch PropsGNF PropsGNF2 PermTable PropsNPar NParTable PropsDGNF PropsDGNF2 PropsRepr PropsShow PropsKernel.
From Coq Require Import String Ascii List Permutation Sorted.
Import ListNotations.
Local Open Scope char_scope.
Local Open Scope list_scope.
Local Open Scope nat_scope.

(** ** normal forms *)
Section NF.
Context {A U : Type} (tb : nat -> res (nftable A)) (letter : string) (show : A -> res string).
Variable body : U -> list ascii.
Variable rel : U -> A -> Prop.
Hypothesis code : forall u v x y, stops x -> stops y -> body u ++ x = body v ++ y -> u = v /\ x = y.
Hypothesis sol : forall u, solid (body u).
Hypothesis start : forall u y, la ")$" <> body u ++ y.
Lemma mapM_texts xs : Forall (fun x => exists u s, rel u x /\ show x = Ok s /\ la s = "$" :: body u ++ ["$"]) xs ->
  exists us ss, Forall2 rel us xs /\ mapM show xs = Ok ss /\ map la (map strip_dollar ss) = map body us.
Proof using sol.
  induction 1 as [|x xs (u & s & R & E & L) _ (us & ss & FR & M & Q)]; [exists [], []; repeat split; constructor|].
  exists (u :: us), (s :: ss). split; [now constructor|]. cbn [mapM]. rewrite E. cbn [bind]. rewrite M. cbn [bind map]. split; [reflexivity|]. rewrite Q. f_equal. now apply strip_solid.
Qed.
Definition good_text (x : A) : Prop := exists u s, rel u x /\ show x = Ok s /\ la s = "$" :: body u ++ ["$"].
Lemma nf_text b k xs : canonical_decomposition tb b = Ok (k, xs) -> Forall good_text xs ->
  exists us s, Forall2 rel us xs /\ nf_latex tb letter show b = Ok s /\
    la s = la "$(\" ++ la letter ++ la "^{" ++ la (dec k) ++ la "};" ++ jn (la ", ") (map body us) ++ la ")$".
Proof using sol.
  intros E F. destruct (mapM_texts xs F) as (us & ss & R & M & Q). exists us. eexists. split; [exact R|]. unfold nf_latex. rewrite E. cbn [bind]. rewrite M. cbn [bind]. split; [reflexivity|].
  rewrite !la_app, la_jn, Q. reflexivity.
Qed.
Lemma nf_text_inj k k' us us' :
  la "$(\" ++ la letter ++ la "^{" ++ la (dec k) ++ la "};" ++ jn (la ", ") (map body us) ++ la ")$" =
  la "$(\" ++ la letter ++ la "^{" ++ la (dec k') ++ la "};" ++ jn (la ", ") (map body us') ++ la ")$" -> k = k' /\ us = us'.
Proof using code start.
  intros Q. do 3 apply app_inv_head in Q. apply dec_code in Q; [|nodig|nodig]. destruct Q as [-> Q]. apply app_inv_head in Q. split; [reflexivity|].
  apply (jn_inj body (fun _ => True) (la ", ") stops (fun x => x = la ")$")) in Q; try (apply Forall_forall; auto; fail); auto.
  - tauto.
  - intros x. do 2 eexists. split; [reflexivity|tauto].
  - intros x ->. do 2 eexists. split; [reflexivity|tauto].
  - intros x y -> E. discriminate.
  - intros a x y _ ->. apply start.
Qed.
End NF.

Lemma word_start u y : la ")$" <> word_text u ++ y.
Proof. destruct u as [|i u]; intros E; [discriminate|]. unfold word_text in E. rewrite jn_jt in E. unfold letter_text in E. discriminate E. Qed.
Lemma normal_perm_words n xs : normal_seq n xs -> Forall (is_perm_word n) xs.
Proof. intros [H _]. eapply Forall_impl; [|exact H]. intros x Hx. apply Hx. Qed.
Lemma perm_good n x : is_perm_word n x -> good_text perm_latex word_text (fun u x => from_cox n u = Ok x) x.
Proof. intros H. destruct (perm_text n x H) as (u & s & C & E & L). exists u, s. auto. Qed.

(** The display of a normal form is defined, and two normal forms of B_n are displayed alike
    exactly if they are equal. *)
Theorem C124_gnf n tb a b : 2 <= n -> gnf_table n tb -> nf_value tb n a -> nf_value tb n b ->
  exists s t, gnf_latex tb a = Ok s /\ gnf_latex tb b = Ok t /\ (s = t <-> a = b).
Proof.
  intros n2 Ht Va Vb.
  destruct (C48_from_gnf_pair_inverts n tb a n2 Ht Va) as (xs & Da & Na & Ra), (C48_from_gnf_pair_inverts n tb b n2 Ht Vb) as (ys & Db & Nb & Rb).
  destruct (nf_text tb "Delta" perm_latex word_text (fun u x => from_cox n u = Ok x) word_solid a _ xs Da) as (us & s & F & E & L); [eapply Forall_impl; [|exact (normal_perm_words n xs Na)]; apply perm_good|].
  destruct (nf_text tb "Delta" perm_latex word_text (fun u x => from_cox n u = Ok x) word_solid b _ ys Db) as (vs & t & F' & E' & L'); [eapply Forall_impl; [|exact (normal_perm_words n ys Nb)]; apply perm_good|].
  exists s, t. split; [exact E|]. split; [exact E'|]. split; [|intros ->; congruence]. intros ->. rewrite L in L'.
  apply (nf_text_inj "Delta" word_text word_code word_start) in L'. destruct L' as [Ek ->].
  assert (xs = ys). { clear - F F'. revert ys F'. induction F as [|u x us xs H F IH]; intros ys F'; inversion F'; subst; [reflexivity|]. f_equal; [congruence|auto]. }
  subst ys. congruence.
Qed.
(** hence exactly if they are the same braid *)
Theorem C124_gnf_braid n tb a b u v : 2 <= n -> gnf_table n tb -> denotes tb n a u -> denotes tb n b v ->
  exists s t, gnf_latex tb a = Ok s /\ gnf_latex tb b = Ok t /\ (s = t <-> braid_eq n u v).
Proof.
  intros n2 Ht Ha Hb. destruct (C124_gnf n tb a b n2 Ht (proj1 Ha) (proj1 Hb)) as (s & t & E & E' & I). exists s, t. split; [exact E|]. split; [exact E'|]. rewrite I.
  apply (api_eq _ _ _ _ _ _ _ _ _ (ptab_ok n n2) tb (gnf_table_ptab n tb Ht)); assumption.
Qed.

(** ** noncrossing partitions *)
Definition comp_text (c : list nat) : list ascii := la "\{" ++ jn (la ", ") (map (fun i => la (decn i)) c) ++ la "\}".
Lemma comp_la c : la (comp_latex c) = comp_text c.
Proof. unfold comp_latex, comp_text. rewrite !la_app, la_jn, map_map. reflexivity. Qed.
Lemma nums_code c l1 l2 x y : ~ is_digit c -> c <> "-" -> c <> "," ->
  jn (la ", ") (map (fun i => la (decn i)) l1) ++ c :: x = jn (la ", ") (map (fun i => la (decn i)) l2) ++ c :: y -> l1 = l2 /\ x = y.
Proof.
  intros D M K Q.
  apply (jn_inj (fun i => la (decn i)) (fun _ => True) (la ", ") nodigit (fun z => exists y, z = c :: y)) in Q; try (apply Forall_forall; auto; fail); eauto.
  - destruct Q as [-> Q]. injection Q as Q. now split.
  - intros a b x0 y0 _ _. apply decn_code.
  - intros x0. nodig.
  - intros z (y0 & ->). do 2 eexists. split; [reflexivity|auto].
  - intros z y0 (y1 & ->) E. cbn in E. injection E as -> _. contradiction.
  - intros a z y0 _ (y1 & ->) E. destruct (decn_head a) as (d & u & Ea & Hd). rewrite Ea in E. injection E as -> _. contradiction.
Qed.
Ltac ndg := unfold is_digit; cbn; intuition discriminate.
Lemma comp_code a b x y : comp_text a ++ x = comp_text b ++ y -> a = b /\ x = y.
Proof.
  unfold comp_text. rewrite <- !app_assoc. intros Q. apply app_inv_head in Q. apply nums_code in Q; [|ndg|discriminate|discriminate].
  destruct Q as [-> Q]. injection Q as Q. now split.
Qed.
(** the text between the dollars *)
Definition npar_text (cs : list (list nat)) : list ascii := la "p(" ++ jn (la cup_sep) (map comp_text cs) ++ la ")".
Lemma npar_code cs ds x y : npar_text cs ++ x = npar_text ds ++ y -> cs = ds /\ x = y.
Proof.
  unfold npar_text. rewrite <- !app_assoc. intros Q. apply app_inv_head in Q.
  apply (jn_inj comp_text (fun _ => True) (la cup_sep) (fun _ => True) (fun z => exists y, z = ")" :: y)) in Q; try (apply Forall_forall; auto; fail); eauto.
  - destruct Q as [-> Q]. injection Q as Q. now split.
  - intros a b x0 y0 _ _ _ _. apply comp_code.
  - intros z y0 (y1 & ->) E. discriminate E.
  - intros a z y0 _ (y1 & ->) E. discriminate E.
  - eexists; reflexivity.
  - eexists; reflexivity.
Qed.
Lemma npar_shows p cs : components p = Ok cs -> exists s, npar_latex p = Ok s /\ la s = "$" :: npar_text cs ++ ["$"].
Proof.
  intros E. unfold npar_latex. rewrite E. cbn [bind]. eexists. split; [reflexivity|]. rewrite !la_app, la_jn, map_map.
  unfold npar_text. rewrite <- !app_assoc. rewrite (map_ext _ _ comp_la). reflexivity.
Qed.
Lemma npar_solid cs : solid (npar_text cs).
Proof.
  exists "p", (la "(" ++ jn (la cup_sep) (map comp_text cs) ++ la ")"), (la "p(" ++ jn (la cup_sep) (map comp_text cs)), ")".
  split; [reflexivity|]. split; [unfold npar_text; now rewrite <- app_assoc|]. split; discriminate.
Qed.
(** Every block is listed, so the display also shows the number of points. *)
Theorem C124_npar n m p q : noncrossing n p -> noncrossing m q ->
  exists s t, npar_latex p = Ok s /\ npar_latex q = Ok t /\ (s = t <-> p = q).
Proof.
  intros Hp Hq. destruct (C38_components n p Hp) as (w & cs & _ & E & P & _ & _ & _ & _ & _ & R), (C38_components m q Hq) as (w' & ds & _ & E' & P' & _ & _ & _ & _ & _ & R').
  destruct (npar_shows p cs E) as (s & Es & L), (npar_shows q ds E') as (t & Et & L'). exists s, t. split; [exact Es|]. split; [exact Et|]. split; [|congruence].
  intros ->. rewrite L in L'. apply (app_inv_head ["$"]) in L'. apply npar_code in L'. destruct L' as [-> _].
  assert (n = m). { apply Permutation_length in P, P'. rewrite seq_length in P, P'. congruence. } subst m. congruence.
Qed.
Lemma npar_good n p : noncrossing n p -> good_text npar_latex npar_text (fun cs p => components p = Ok cs /\ from_components n (map (map Z.of_nat) cs) = Ok p) p.
Proof.
  intros Hp. destruct (C38_components n p Hp) as (w & cs & _ & E & _ & _ & _ & _ & _ & _ & R). destruct (npar_shows p cs E) as (s & Es & L). exists cs, s. auto.
Qed.

Section D.
Variable n : nat.
Variable tab : nptab.
Hypothesis n2 : 2 <= n.
Hypothesis Ht : npar_tables n tab.
Notation tb := (dtb tab).
Let Etb : tb n = Ok (ntab n) := dtb_ok n tab n2 Ht.
Let TK := ntab_ok n n2.
Lemma dgnf_decomposition b : nf_value tb n b -> exists d l, b = TableTheory.enc (NCGerm.NG n) n (nidx n) (d, l) /\ canonical_decomposition tb b = Ok (d, map (en n) l).
Proof using n2 Ht.
  intros V. destruct (NFGeneric.gval_enc _ _ _ _ _ _ _ _ _ TK tb Etb b V) as [[d l] [Ho ->]]. exists d, l. split; [reflexivity|].
  unfold canonical_decomposition, canonical_factors. cbn [o_n TableTheory.enc]. rewrite Etb. cbn [bind o_factors snd].
  assert (K : mapM (pyget (t_divs (ntab n))) (map (nidx n) l) = Ok (map (en n) l)).
  { clear - TK. induction l as [|x m IH]; [reflexivity|]. cbn [map mapM]. rewrite (TableTheory.tk_div _ _ _ _ _ _ _ _ _ TK). cbn [bind]. rewrite IH. reflexivity. }
  change (bind (bind (Ok (ntab n)) (fun t => mapM (pyget (t_divs t)) (map (nidx n) l))) (fun fs => Ok (d, fs)) = Ok (d, map (en n) l)).
  cbn [bind]. rewrite K. reflexivity.
Qed.
Lemma en_good l : Forall (good_text npar_latex npar_text (fun cs p => components p = Ok cs /\ from_components n (map (map Z.of_nat) cs) = Ok p)) (map (en n) l).
Proof using.
  apply Forall_forall. intros p Hp. apply npar_good. apply in_map_iff in Hp. destruct Hp as [x [<- _]]. pose proof (en_in n x) as I. apply NE_in in I. destruct I as [w [Hw ->]]. now apply noncrossing_inv_of.
Qed.
Lemma npar_start u y : la ")$" <> npar_text u ++ y.
Proof using. intros E. discriminate E. Qed.
Theorem C124_dgnf a b : nf_value tb n a -> nf_value tb n b ->
  exists s t, dgnf_latex tb a = Ok s /\ dgnf_latex tb b = Ok t /\ (s = t <-> a = b).
Proof using n2 Ht.
  intros Va Vb. destruct (dgnf_decomposition a Va) as (d & l & Ea & Da), (dgnf_decomposition b Vb) as (e & m & Eb & Db).
  destruct (nf_text tb "delta" npar_latex npar_text _ npar_solid a _ _ Da (en_good l)) as (us & s & F & E & L).
  destruct (nf_text tb "delta" npar_latex npar_text _ npar_solid b _ _ Db (en_good m)) as (vs & t & F' & E' & L').
  exists s, t. split; [exact E|]. split; [exact E'|]. split; [|intros ->; congruence]. intros ->. rewrite L in L'.
  apply (nf_text_inj "delta" npar_text (fun u v x y _ _ => npar_code u v x y) npar_start) in L'. destruct L' as [Ek ->].
  assert (Q : map (en n) l = map (en n) m). { clear - F F'. revert F'. generalize (map (en n) m) as ys. induction F as [|u x us xs [_ H] F IH]; intros ys F'; inversion F' as [|? ? ? ? [_ H'] ?]; subst; [reflexivity|]. f_equal; [congruence|auto]. }
  rewrite Ea, Eb, Ek. do 2 f_equal. clear - Q. revert m Q. induction l as [|x l IH]; intros [|y m] Q; try discriminate; [reflexivity|]. cbn in Q. injection Q as Q1 Q2. f_equal; [|auto]. apply (en_inj n). unfold en. congruence.
Qed.
Theorem C124_dgnf_braid a b u v : denotes tb n a u -> denotes tb n b v ->
  exists s t, dgnf_latex tb a = Ok s /\ dgnf_latex tb b = Ok t /\ (s = t <-> braid_eq n u v).
Proof using n2 Ht.
  intros Ha Hb. destruct (C124_dgnf a b (proj1 Ha) (proj1 Hb)) as (s & t & E & E' & I). exists s, t. split; [exact E|]. split; [exact E'|]. rewrite I.
  apply (api_eq _ _ _ _ _ _ _ _ _ TK tb Etb); assumption.
Qed.
End D.

(** ** C125: repr of a noncrossing partition *)
Definition set_text (c : list nat) : list ascii := la "{" ++ jn (la ", ") (map (fun i => la (decn i)) c) ++ la "}".
Lemma set_code a b x y : set_text a ++ x = set_text b ++ y -> a = b /\ x = y.
Proof.
  unfold set_text. rewrite <- !app_assoc. intros Q. apply app_inv_head in Q. apply nums_code in Q; [exact Q|ndg|discriminate|discriminate].
Qed.
Lemma sorted_same {A} (R : A -> A -> Prop) l1 : (forall a, ~ R a a) -> (forall a b, R a b -> R b a -> False) ->
  forall l2, StronglySorted R l1 -> StronglySorted R l2 -> (forall x, In x l1 <-> In x l2) -> l1 = l2.
Proof.
  intros Irr As. induction l1 as [|a l1 IH]; intros l2 S1 S2 H.
  - destruct l2 as [|b l2]; [reflexivity|]. exfalso. apply (H b). now left.
  - destruct l2 as [|b l2]; [exfalso; apply (H a); now left|]. inversion S1 as [|? ? S1' F1]; inversion S2 as [|? ? S2' F2]; subst. rewrite Forall_forall in F1, F2.
    assert (a = b). { destruct (proj1 (H a) (or_introl eq_refl)) as [->|Ha]; [reflexivity|]. destruct (proj2 (H b) (or_introl eq_refl)) as [->|Hb]; [reflexivity|]. exfalso. eauto. }
    subst b. f_equal. apply IH; auto. intros x. split; intros Hx.
    + destruct (proj1 (H x) (or_intror Hx)) as [<-|K]; [exfalso; exact (Irr _ (F1 _ Hx))|exact K].
    + destruct (proj2 (H x) (or_intror Hx)) as [<-|K]; [exfalso; exact (Irr _ (F2 _ Hx))|exact K].
Qed.
Lemma sorted_perm_eq c d : StronglySorted lt c -> StronglySorted lt d -> Permutation c d -> c = d.
Proof.
  intros S1 S2 P. apply (sorted_same lt); [intros; lia|intros; lia|exact S1|exact S2|].
  intros x. split; [apply Permutation_in; exact P|apply Permutation_in; now symmetry].
Qed.
(** the blocks are determined by those with more than one point *)
Lemma blocks_from_big n cs : Permutation (concat cs) (seq 0 n) -> Forall (fun c => c <> []) cs -> forall c,
  In c cs <-> (In c cs /\ 1 < length c) \/ (exists x, c = [x] /\ x < n /\ forall d, In d cs -> 1 < length d -> ~ In x d).
Proof.
  intros P N c. rewrite Forall_forall in N. assert (ND : NoDup (concat cs)) by (apply (Permutation_NoDup (Permutation_sym P)), seq_NoDup). split.
  - intros Hc. destruct c as [|x [|y c]]; [exfalso; now apply (N [])| |left; cbn; split; [exact Hc|lia]]. right. exists x. split; [reflexivity|].
    assert (I : In x (concat cs)) by (apply in_concat; exists [x]; split; [exact Hc|now left]). split; [apply (Permutation_in _ P), in_seq in I; lia|].
    intros d Hd Ld Hx. assert (d = [x]) by (eapply NParBlocks.NoDup_concat_in; [exact ND|exact Hd|exact Hc|exact Hx|now left]). subst d. cbn in Ld. lia.
  - intros [[H _]|(x & -> & Hx & H)]; [exact H|]. assert (I : In x (concat cs)) by (apply (Permutation_in _ (Permutation_sym P)), in_seq; lia).
    apply in_concat in I. destruct I as (d & Hd & Hxd). destruct (le_lt_dec (length d) 1) as [L|L]; [|exfalso; exact (H d Hd L Hxd)].
    destruct d as [|y [|z d]]; [destruct Hxd| |cbn in L; lia]. destruct Hxd as [->|[]]. exact Hd.
Qed.
(** Two noncrossing partitions with the same repr are equal, whatever orders Python iterates the
    sets in. *)
Theorem C125_repr o1 o2 n m p q : (forall c, Permutation (o1 c) c) -> (forall c, Permutation (o2 c) c) -> noncrossing n p -> noncrossing m q ->
  exists s t, npar_repr o1 p = Ok s /\ npar_repr o2 q = Ok t /\ (s = t -> p = q).
Proof.
  intros O1 O2 Hp Hq. destruct (C38_components n p Hp) as (w & cs & _ & E & P & N & S & SS & _ & _ & R), (C38_components m q Hq) as (w' & ds & _ & E' & P' & N' & S' & SS' & _ & _ & R').
  unfold npar_repr. rewrite E, E'. cbn [bind]. eexists. eexists. split; [reflexivity|]. split; [reflexivity|]. intros Q. apply (f_equal la) in Q. rewrite !la_app, !la_jn, !map_map in Q.
  assert (ST : forall (o : list nat -> list nat) l, map (fun c => la (String.append "{" (String.append (join ", " (map decn (o c))) "}"))) l = map set_text (map o l)).
  { intros o l. rewrite map_map. apply map_ext. intros c. rewrite !la_app, la_jn, map_map. reflexivity. }
  rewrite !ST in Q. apply app_inv_head in Q. apply decn_code in Q; [|nodig|nodig]. destruct Q as [En Q]. apply app_inv_head in Q.
  apply (jn_inj set_text (fun _ => True) (la ", ") (fun _ => True) (fun z => z = la "])")) in Q; auto; try (apply Forall_forall; auto; fail).
  2: { intros a b x y _ _ _ _. apply set_code. }
  2: { intros x y -> K. discriminate. }
  2: { intros a x y _ -> K. discriminate. }
  destruct Q as [Q _]. assert (n = m) by (destruct Hp as [<- _], Hq as [<- _]; exact En). subst m.
  assert (BIG : forall (o o' : list nat -> list nat) (l l' : list (list nat)), (forall c, Permutation (o c) c) -> (forall c, Permutation (o' c) c) -> Forall (StronglySorted lt) l -> Forall (StronglySorted lt) l' ->
    map o (filter (fun c => (1 <? length c)%nat) l) = map o' (filter (fun c => (1 <? length c)%nat) l') -> forall c, In c l -> 1 < length c -> In c l').
  { intros o o' l l' Po Po' F F' K c Hc Lc. rewrite Forall_forall in F, F'. assert (I : In (o c) (map o' (filter (fun c => (1 <? length c)%nat) l'))). { rewrite <- K. apply in_map, filter_In. split; [exact Hc|now apply Nat.ltb_lt]. }
    apply in_map_iff in I. destruct I as (d & Ed & Hd). apply filter_In in Hd. destruct Hd as [Hd _]. assert (c = d). { apply sorted_perm_eq; auto. rewrite <- (Po c), <- Ed. apply Po'. } now subst d. }
  assert (B1 := BIG o1 o2 cs ds O1 O2 S S' Q). assert (B2 := BIG o2 o1 ds cs O2 O1 S' S (eq_sym Q)).
  assert (cs = ds).
  { apply (sorted_same (fun c d => hd 0 c < hd 0 d)); [intros; lia|intros; lia|exact SS|exact SS'|]. intros c. rewrite (blocks_from_big n cs P N c), (blocks_from_big n ds P' N' c).
    split; intros [[H L]|(x & -> & Hx & H)]; [left; auto| |left; auto|]; right; exists x; (split; [reflexivity|]); (split; [exact Hx|]); intros d Hd Ld; apply H; auto. }
  subst ds. congruence.
Qed.
Example C124_npar_case : npar_latex (NPar 3 [5; 2; 1; 4; 3; 0]) = Ok "$p(\{0, 1, 2\})$"%string /\ noncrossing 3 (NPar 3 [3; 2; 1; 0; 5; 4]) /\ npar_latex (NPar 3 [3; 2; 1; 0; 5; 4]) = Ok "$p(\{0, 1\} ∪ \{2\})$"%string.
Proof.
  split; [reflexivity|]. split; [|reflexivity].
  destruct (C38_all_of_size 3) as (l & E & _ & I & _). apply I. vm_compute in E. injection E as <-. cbn. tauto.
Qed.
Example C125_case : npar_repr (@rev nat) (NPar 3 [3; 2; 1; 0; 5; 4]) = Ok "NPar(3, [{1, 0}])"%string /\ (forall c : list nat, Permutation (rev c) c).
Proof. split; [reflexivity|]. intros c. symmetry. apply Permutation_rev. Qed.
(** for any table of B_3 *)
Example C124_gnf_case tb : gnf_table 3 tb -> exists b, nf_value tb 3 b /\ gnf_latex tb b = Ok "$(\Delta^{-2};s_{0} s_{1})$"%string.
Proof.
  intros Ht. destruct (PropsKernel.C116_round_trip 3 tb (-2)%Z [[1; 2; 0]] ltac:(lia) Ht) as (b & _ & V & D & _).
  { split; [|exact I]. constructor; [|constructor]. split; [|split; discriminate]. unfold is_perm_word. cbn. apply Permutation_sym. apply (Permutation_cons_append [1; 2] 0). }
  exists b. split; [exact V|]. unfold gnf_latex, nf_latex. rewrite D. reflexivity.
Qed.
Example C124_gnf_tables : gnf_table 3 (gtb PermGerm.hdpick). Proof. apply (gtb_is_table PermGerm.hdpick 3 PermGerm.hdpick_ok); lia. Qed.
