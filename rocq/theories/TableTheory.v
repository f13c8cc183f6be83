(** TableTheory.v – the index-level algorithms of ModelBraid compute the germ
    normal form, for any table that tabulates a germ. *)
From Verif Require Import Base ModelPerm ModelBraid Germ GermNF GermAct SpecBraid BraidTheory GermBraid.
From Coq Require Import Setoid FinFun.

Section Tab.
Context {A : Type}.
Variable tbl : nftable A.
Variable G : Germ.
Notation T := (T G).
Notation one := (one G).
Notation D := (D G).
Notation red := (red G).
Variable rn : T -> T -> T * T.
Variable eqd : forall x y : T, {x = y} + {x <> y}.
Variable n : nat.
Variable wd : T -> list (Z * Z).
Variable atom : nat -> T.
Variable idx : T -> Z.
Variable div : T -> A.
Definition lift (x : T) : bword := expand (wd x).

Notation act := (act G rn eqd).
Notation act_inv := (act_inv G rn eqd).
Notation ok := (ok G eqd).
Notation nf := (nf G).
Notation NF := (NF G rn).
Notation canon := (canon G eqd).
Notation shift := (shift G).
Notation taupow := (taupow G).
Notation state := (state G).
Notation lead := (lead G eqd).
Notation dropD := (dropD G eqd).
Notation trim := (trim G eqd).
Notation acts := (acts G rn eqd).
Notation nfw := (nfw G rn eqd atom).
Notation actw := (actw G rn eqd atom).
Notation word_of := (word_of G lift).

Record table_ok : Prop := {
  tk_rn : forall x y, rnspec G x y (fst (rn x y)) (snd (rn x y));
  tk_D1 : D <> one;
  tk_range : forall x, in_range n (lift x);
  tk_mul : forall a b, red a b -> braid_eq n (lift (mul G a b)) (lift a ++ lift b);
  tk_atom : forall i, i + 1 < n -> braid_eq n (lift (atom i)) [(i, true)];
  tk_braid : forall i s, i + 2 < n -> ok s ->
    act (atom i) (act (atom (i + 1)) (act (atom i) s)) =
    act (atom (i + 1)) (act (atom i) (act (atom (i + 1)) s));
  tk_far : forall i j s, i + 2 <= j -> j + 1 < n -> ok s ->
    act (atom i) (act (atom j) s) = act (atom j) (act (atom i) s);
  tk_actlift : forall x s, ok s -> actw (lift x) s = act x s;
  tk_n : t_n tbl = n;
  tk_inj : forall x y, idx x = idx y -> x = y;
  tk_bound : forall x, (0 <= idx x < Z.of_nat (t_order tbl))%Z;
  tk_surj : forall k, (0 <= k < Z.of_nat (t_order tbl))%Z -> exists x, idx x = k;
  tk_div : forall x, pyget (t_divs tbl) (idx x) = Ok (div x);
  tk_index : forall x, index tbl (div x) = Ok (idx x);
  tk_id : t_id tbl = idx one;
  tk_DD : t_D tbl = idx D;
  tk_gens : forall i, i + 1 < n -> pyget (t_gens tbl) (Z.of_nat i) = Ok (idx (atom i));
  tk_gens_len : length (t_gens tbl) = n - 1;
  tk_lc : forall x, pyget (t_lc tbl) (idx x) = Ok (idx (lc G x));
  tk_rc : forall x, pyget (t_rc tbl) (idx x) = Ok (idx (rc G x));
  tk_tau : forall k x, tau_right_at tbl k (idx x) = Ok (idx (taupow k x));
  tk_renorm : forall x y, lookup2 (t_renorm tbl) (idx x) (idx y) =
      Ok (idx (fst (rn x y)), idx (snd (rn x y)));
  tk_isnorm : forall x y, exists b, lookup2 (t_isnorm tbl) (idx x) (idx y) = Ok b /\
      (b = true <-> nrm G x y);
  tk_follows : forall x, exists ys, pyget (t_follows tbl) (idx x) = Ok (map idx ys) /\ NoDup ys /\
      forall y, In y ys <-> (nrm G x y /\ y <> one /\ y <> D);
  tk_word : forall x, pyget (t_word tbl) (idx x) = Ok (wd x);
  tk_wdok : forall x, word_ok n (wd x) /\ Forall (fun l => Z.abs (snd l) = 1%Z) (wd x)
}.

Hypothesis TK : table_ok.
Let rn_ok := tk_rn TK.

Lemma eqb_idx x y : (idx x =? idx y)%Z = if eqd x y then true else false.
Proof.
  destruct (eqd x y) as [->|N]; [apply Z.eqb_refl|].
  apply Z.eqb_neq. intros E. apply N. now apply (tk_inj TK).
Qed.

(** ** Lookups *)
Lemma get_map_idx l i d : i < length l -> get (map idx l) i = Ok (idx (nth i l d)).
Proof.
  intros H. rewrite (get_ok _ _ (idx d)) by (now rewrite map_length). now rewrite map_nth.
Qed.

Lemma upd_map (l : list T) i x : upd (map idx l) i (idx x) = map idx (upd l i x).
Proof.
  revert i; induction l as [|y l IH]; intros [|i]; cbn [map upd]; try reflexivity. now rewrite IH.
Qed.

Lemma Nst_upd l i d : i + 1 < length l ->
  Nst G rn i l = upd (upd l i (fst (rn (nth i l d) (nth (i + 1) l d)))) (i + 1)
                     (snd (rn (nth i l d) (nth (i + 1) l d))).
Proof.
  revert l; induction i as [|i IH]; intros l H.
  - destruct l as [|x [|y l]]; cbn in H; try lia. cbn. destruct (rn x y). reflexivity.
  - destruct l as [|x l]; cbn in H; [lia|]. cbn [Nst]. rewrite IH by lia. reflexivity.
Qed.

Lemma renorm_at_ok l j : j + 1 < length l ->
  renorm_at tbl (map idx l) j = Ok (map idx (Nst G rn j l)).
Proof.
  intros H. unfold renorm_at. rewrite !(get_map_idx l _ one) by lia. cbn [bind].
  rewrite (tk_renorm TK). cbn [bind]. rewrite !upd_map. now rewrite <- Nst_upd.
Qed.

Lemma foldM_renorm u l : Forall (fun j => j + 1 < length l) u ->
  foldM (renorm_at tbl) u (map idx l) = Ok (map idx (apw G rn u l)).
Proof.
  revert l; induction u as [|j u IH]; intros l H; cbn [foldM]; [reflexivity|].
  inversion H; subst. rewrite renorm_at_ok by assumption. cbn [bind].
  rewrite IH; [reflexivity|]. now rewrite Nst_length.
Qed.

Lemma count_lead_ok l : count_lead tbl (map idx l) = lead l.
Proof.
  induction l as [|x l IH]; [reflexivity|]. cbn [map count_lead GermAct.lead].
  rewrite (tk_DD TK), eqb_idx. destruct (eqd x D); [now rewrite IH|reflexivity].
Qed.

Lemma skipn_lead l : skipn (lead l) l = dropD l.
Proof.
  induction l as [|x l IH]; [reflexivity|]. cbn [GermAct.lead GermAct.dropD].
  destruct (eqd x D); [exact IH|reflexivity].
Qed.

Fixpoint dropone (l : list T) : list T :=
  match l with
  | x :: l' => if eqd x one then dropone l' else l
  | [] => []
  end.
Lemma drop_id_ok l : drop_id tbl (map idx l) = map idx (dropone l).
Proof.
  induction l as [|x l IH]; [reflexivity|]. cbn [map drop_id dropone].
  rewrite (tk_id TK), eqb_idx. destruct (eqd x one); [exact IH|reflexivity].
Qed.
Lemma dropone_app p q : dropone (p ++ q) = match dropone p with [] => dropone q | t => t ++ q end.
Proof.
  induction p as [|x p IH]; [reflexivity|]. cbn [List.app dropone].
  destruct (eqd x one); [exact IH|reflexivity].
Qed.
Lemma trim_dropone l : rev (dropone (rev l)) = trim l.
Proof.
  induction l as [|x l IH]; [reflexivity|]. cbn [rev GermAct.trim]. rewrite <- IH, dropone_app.
  destruct (dropone (rev l)) as [|y t] eqn:E; cbn [rev dropone].
  - destruct (eqd x one); reflexivity.
  - rewrite <- E. rewrite rev_app_distr. cbn [rev List.app].
    destruct (rev (dropone (rev l))) eqn:E2.
    + rewrite E in E2. cbn [rev] in E2. destruct (rev t); discriminate.
    + rewrite E in E2. cbn [rev] in E2. now rewrite E2.
Qed.

Lemma strip_ok l : strip tbl (map idx l) = (Z.of_nat (lead l), map idx (trim (dropD l))).
Proof.
  unfold strip. rewrite count_lead_ok. f_equal.
  rewrite skipn_map, skipn_lead, <- map_rev, drop_id_ok, <- map_rev, trim_dropone. reflexivity.
Qed.

Theorem normalise_factors_ok l :
  normalise_factors tbl (map idx l) = Ok (Z.of_nat (lead (NF l)), map idx (trim (dropD (NF l)))).
Proof.
  unfold normalise_factors. rewrite map_length.
  assert (K : forall k, k <= length l - 1 ->
    foldM (fun f i => f <- renorm_at tbl f i ;; f <- foldM (renorm_at tbl) (rev (seq 0 i)) f ;;
       foldM (renorm_at tbl) (seq (i + 1) (length l - 1 - (i + 1))) f) (seq 0 k) (map idx l)
    = Ok (map idx (apw G rn (algo_word (length l) k) l))).
  { induction k as [|k IH]; intros Hk; [reflexivity|].
    rewrite seq_S, foldM_app, IH by lia. cbn [bind foldM plus].
    set (g := apw G rn (algo_word (length l) k) l).
    assert (Lg : length g = length l) by apply apw_length.
    rewrite renorm_at_ok by lia. cbn [bind].
    rewrite foldM_renorm.
    2:{ rewrite Nst_length. apply Forall_forall. intros j Hj. apply in_rev, in_seq in Hj. lia. }
    cbn [bind]. rewrite foldM_renorm.
    2:{ rewrite apw_length, Nst_length. apply Forall_forall. intros j Hj. apply in_seq in Hj. lia. }
    cbn [bind]. f_equal. f_equal. unfold algo_word. rewrite seq_S, flat_map_app.
    cbn [flat_map plus]. rewrite app_nil_r, apw_app. fold (algo_word (length l) k). fold g.
    unfold algo_iter. rewrite seq_app, rev_app_distr. cbn [rev seq List.app plus].
    rewrite <- apw_app. reflexivity. }
  rewrite K by lia. cbn [bind]. rewrite (algo_NF G rn rn_ok). now rewrite strip_ok.
Qed.

(** ** Normality test *)
Lemma pairs_ok l : exists b, pairs_normalised tbl (map idx l) = Ok b /\ (b = true <-> nf l).
Proof.
  induction l as [|x l IH].
  - exists true. split; [reflexivity|]. split; [intros; exact I|reflexivity].
  - destruct l as [|y l].
    + exists true. split; [reflexivity|]. split; [intros; repeat split|reflexivity].
    + destruct (tk_isnorm TK x y) as [b [E Hb]]. destruct IH as [b' [E' Hb']].
      cbn [map] in E' |- *. cbn [pairs_normalised]. rewrite E. cbn [bind].
      destruct b.
      * exists b'. split; [exact E'|]. rewrite Hb'. cbn [GermNF.nf]. split; [|tauto].
        intros H. split; [now apply Hb|exact H].
      * exists false. split; [reflexivity|]. split; [discriminate|].
        intros [H _]. apply Hb in H. discriminate.
Qed.

Lemma trim_last l x : trim (l ++ [x]) = l ++ [x] <-> x <> one.
Proof.
  rewrite <- trim_dropone, rev_app_distr. cbn [rev List.app dropone].
  destruct (eqd x one) as [->|N].
  - split; [|contradiction]. intros E. exfalso.
    assert (L : length (rev (dropone (rev l))) <= length l).
    { rewrite rev_length. rewrite <- (rev_length l). generalize (rev l). clear.
      induction l as [|y l IH]; [reflexivity|]. cbn [dropone]. destruct (eqd y one); cbn [length]; lia. }
    rewrite E, app_length in L. cbn in L. lia.
  - split; [tauto|]. intros _. cbn [rev]. now rewrite rev_involutive.
Qed.

Lemma isfn_ok d l : exists b, is_factors_normalised tbl (map idx l) = Ok b /\ (b = true <-> ok (d, l)).
Proof.
  unfold is_factors_normalised. destruct (pairs_ok l) as [b [E Hb]]. rewrite E. cbn [bind].
  unfold GermAct.ok. cbn [snd].
  destruct b; cbn [negb].
  2:{ exists false. split; [reflexivity|]. split; [discriminate|]. intros [H _]. apply Hb in H. discriminate. }
  destruct l as [|x l].
  - exists true. split; [reflexivity|]. split; [|reflexivity]. intros _. repeat split.
  - exists (negb (idx x =? t_D tbl)%Z && negb (last (map idx (x :: l)) (idx x) =? t_id tbl)%Z).
    cbn [map]. split; [reflexivity|].
    destruct (exists_last (l := x :: l) ltac:(discriminate)) as [l' [y Ey]].
    assert (EL : last (idx x :: map idx l) (idx x) = idx y).
    { change (idx x :: map idx l) with (map idx (x :: l)). rewrite Ey, map_app. cbn [map].
      apply last_last. }
    rewrite EL, (tk_DD TK), (tk_id TK), !eqb_idx.
    assert (H2 : trim (x :: l) = x :: l <-> y <> one) by (rewrite Ey; apply trim_last).
    assert (H1 : dropD (x :: l) = x :: l <-> x <> D).
    { split.
      - intros H. destruct (dropD_nil_or G eqd _ H) as [K|[x' [l'' [K N]]]]; [discriminate|].
        injection K as -> ->. exact N.
      - intros N. cbn. destruct (eqd x D); [contradiction|reflexivity]. }
    assert (Hn : nf (x :: l)) by (now apply Hb).
    rewrite H1, H2. destruct (eqd x D), (eqd y one); cbn; split; try discriminate;
      try (intros [_ [? ?]]; contradiction); intros; try reflexivity; auto.
Qed.

(** ** product *)
Lemma last_map_idx p s d : last (map idx (p ++ [s])) d = idx s.
Proof. rewrite map_app. cbn [map]. apply last_last. Qed.

Lemma comb_loop_ok p x r :
  nf p ->
  comb_loop tbl (map idx (p ++ x :: r)) (rev (seq 0 (length p))) = Ok (map idx (rm G rn p x ++ r)).
Proof.
  revert x r. induction p as [|s p IH] using rev_ind; intros x r H; [reflexivity|].
  rewrite app_length. cbn [length]. rewrite seq_app, rev_app_distr. cbn [seq rev List.app plus comb_loop].
  rewrite <- app_assoc. cbn [List.app].
  set (L := p ++ s :: x :: r).
  assert (LL : length L = length p + (2 + length r)) by (unfold L; rewrite app_length; cbn; lia).
  rewrite !(get_map_idx L _ one) by lia. cbn [bind].
  assert (E1 : nth (length p) L one = s) by (unfold L; now rewrite app_nth2, Nat.sub_diag by lia).
  assert (E2 : nth (length p + 1) L one = x).
  { unfold L. rewrite app_nth2 by lia. replace (length p + 1 - length p) with 1 by lia. reflexivity. }
  rewrite E1, E2, (tk_renorm TK). cbn [bind]. rewrite eqb_idx.
  rewrite rm_app. destruct (rn s x) as [w z] eqn:E. cbn [fst snd].
  destruct (eqd w s) as [->|N].
  - f_equal. f_equal. rewrite <- app_assoc. unfold L.
    pose proof (rm_nochange G rn rn_ok p x s z H E) as K. rewrite rm_app, E in K.
    rewrite (app_assoc (rm G rn p s)), K. rewrite <- app_assoc. reflexivity.
  - rewrite !upd_map. 
    assert (E3 : upd (upd L (length p) w) (length p + 1) z = p ++ w :: z :: r).
    { pose proof (Nst_upd L (length p) one ltac:(lia)) as K. rewrite E1, E2, E in K. cbn [fst snd] in K.
      rewrite <- K. unfold L. rewrite Nst_app_r by lia. rewrite Nat.sub_diag. cbn [Nst]. now rewrite E. }
    rewrite E3. rewrite IH; [|now apply nf_app_l in H].
    now rewrite <- app_assoc.
Qed.

Lemma pnf_loop_ok p q :
  nf p -> nf q -> p <> [] ->
  exists l, pnf_loop tbl (map idx (p ++ q)) (seq (length p - 1) (length q)) = Ok (map idx l) /\
    nf l /\ NF l = NF (p ++ q).
Proof.
  revert p; induction q as [|x q IH]; intros p Hp Hq Np.
  - exists p. rewrite app_nil_r. cbn [length seq pnf_loop]. repeat split. exact Hp.
  - destruct (exists_last Np) as [p0 [s ->]].
    rewrite app_length. cbn [length seq pnf_loop].
    replace (length p0 + 1 - 1) with (length p0) by lia.
    rewrite <- app_assoc. cbn [List.app].
    set (L := p0 ++ s :: x :: q).
    assert (LL : length L = length p0 + (2 + length q)) by (unfold L; rewrite app_length; cbn; lia).
    rewrite !(get_map_idx L _ one) by lia. cbn [bind].
    assert (E1 : nth (length p0) L one = s) by (unfold L; now rewrite app_nth2, Nat.sub_diag by lia).
    assert (E2 : nth (length p0 + 1) L one = x).
    { unfold L. rewrite app_nth2 by lia. replace (length p0 + 1 - length p0) with 1 by lia. reflexivity. }
    rewrite E1, E2, (tk_renorm TK). cbn [bind]. rewrite eqb_idx.
    destruct (rn s x) as [w z] eqn:E. cbn [fst snd].
    destruct (eqd w s) as [->|N].
    + exists L. repeat split.
      destruct (rn_fst_eq G rn rn_ok _ _ _ E) as [-> Hn].
      unfold L. clear -Hp Hq Hn. induction p0 as [|t p0 IHp]; cbn [List.app].
      * split; [exact Hn|exact Hq].
      * cbn [List.app] in Hp. destruct Hp as [H1 H2]. split; [|now apply IHp].
        destruct p0; exact H1.
    + rewrite !upd_map.
      assert (E3 : upd (upd L (length p0) w) (length p0 + 1) z = p0 ++ w :: z :: q).
      { pose proof (Nst_upd L (length p0) one ltac:(lia)) as K. rewrite E1, E2, E in K. cbn [fst snd] in K.
        rewrite <- K. unfold L. rewrite Nst_app_r by lia. rewrite Nat.sub_diag. cbn [Nst]. now rewrite E. }
      rewrite E3, comb_loop_ok by (now apply nf_app_l in Hp). cbn [bind].
      assert (E4 : rm G rn p0 w ++ z :: q = rm G rn (p0 ++ [s]) x ++ q).
      { rewrite rm_app, E. now rewrite <- app_assoc. }
      rewrite E4.
      destruct (IH (rm G rn (p0 ++ [s]) x)) as [l [F1 [F2 F3]]].
      * now apply (rm_nf G rn rn_ok).
      * now apply nf_tail in Hq.
      * intros K. pose proof (rm_length G rn (p0 ++ [s]) x) as R. rewrite K in R. discriminate.
      * exists l. split; [|split; [exact F2|]].
        -- rewrite rm_length, app_length in F1. cbn [length] in F1.
           replace (S (length p0 + 1) - 1) with (S (length p0)) in F1 by lia. exact F1.
        -- rewrite F3. unfold L.
           pose proof (rm_apw G rn (p0 ++ [s]) x q) as K. rewrite <- app_assoc in K. cbn [List.app] in K.
           rewrite <- K. apply (NF_apw G rn rn_ok).
Qed.

Theorem product_ok p q d e :
  ok (d, p) -> ok (e, q) ->
  product_normalised_factors tbl (map idx p) (map idx q) =
  Ok (Z.of_nat (lead (NF (p ++ q))), map idx (trim (dropD (NF (p ++ q))))).
Proof.
  intros Hp Hq.
  assert (Fast : nf (p ++ q) -> Ok (0%Z, map idx p ++ map idx q) = 
     Ok (Z.of_nat (lead (NF (p ++ q))), map idx (trim (dropD (NF (p ++ q)))))).
  { intros H. rewrite (NF_fix G rn rn_ok) by exact H. rewrite <- map_app.
    assert (K : ok (0%Z, p ++ q)).
    { destruct p as [|x p]; [exact Hq|].
      destruct (exists_last (l := (x :: p) ++ q) ltac:(discriminate)) as [l' [y Ey]].
      split; [exact H|]. cbn [snd]. split.
      - destruct Hp as [_ [Hp _]]. cbn [snd] in Hp.
        destruct (dropD_nil_or G eqd _ Hp) as [K|[x' [l'' [K N]]]]; [discriminate|]. injection K as -> ->.
        cbn. destruct (eqd x' D); [contradiction|reflexivity].
      - rewrite Ey. apply trim_last. intros ->. destruct q as [|z q].
        + rewrite app_nil_r in Ey. destruct Hp as [_ [_ Hp]]. cbn [snd] in Hp. rewrite Ey in Hp.
          apply trim_last in Hp. contradiction.
        + destruct (exists_last (l := z :: q) ltac:(discriminate)) as [q' [y' Ey']].
          rewrite Ey' in Ey. rewrite app_assoc in Ey. apply app_inj_tail in Ey. destruct Ey as [_ ->].
          destruct Hq as [_ [_ Hq]]. cbn [snd] in Hq. rewrite Ey' in Hq. apply trim_last in Hq. contradiction. }
    apply canon_fix in K. unfold GermAct.canon in K. injection K as K1 K2.
    f_equal. f_equal; [lia|]. now rewrite K2. }
  unfold product_normalised_factors.
  destruct p as [|x p]; [cbn [map bind]; apply Fast; apply Hq|].
  destruct q as [|y q].
  { cbn [map bind]. apply Fast. rewrite app_nil_r. apply Hp. }
  destruct (exists_last (l := x :: p) ltac:(discriminate)) as [p0 [s Es]].
  assert (EL : last (map idx (x :: p)) (idx x) = idx s) by (rewrite Es; apply last_map_idx).
  destruct (tk_isnorm TK s y) as [b [Eb Hb]].
  cbn [map] in EL |- *. rewrite EL. rewrite Eb. cbn [bind]. destruct b.
  - apply Fast. rewrite Es. rewrite <- app_assoc. cbn [List.app].
    destruct Hp as [Hp _]. cbn [snd] in Hp. rewrite Es in Hp.
    destruct Hq as [Hq _]. cbn [snd] in Hq.
    assert (Hn : nrm G s y) by now apply Hb.
    clear -Hp Hq Hn. induction p0 as [|t p0 IHp]; cbn [List.app].
    * split; [exact Hn|exact Hq].
    * cbn [List.app] in Hp. destruct Hp as [H1 H2]. split; [|now apply IHp].
      destruct p0; exact H1.
  - change (idx x :: map idx p) with (map idx (x :: p)).
    change (idx y :: map idx q) with (map idx (y :: q)).
    rewrite <- map_app, !map_length, app_length.
    replace (length (x :: p) + length (y :: q) - 1 - (length (x :: p) - 1)) with (length (y :: q))
      by (cbn [length]; lia).
    destruct (pnf_loop_ok (x :: p) (y :: q)) as [l [F1 [F2 F3]]];
      [apply Hp|apply Hq|discriminate|].
    rewrite F1. cbn [bind]. rewrite strip_ok.
    now rewrite <- F3, (NF_fix G rn rn_ok l F2).
Qed.

(** ** Objects *)
Variable tb : nat -> res (nftable A).
Hypothesis tb_n : tb n = Ok tbl.

Definition enc (s : state) : nfobj := NFObj n (fst s) (map idx (snd s)).

Lemma enc_inj s t : enc s = enc t -> s = t.
Proof.
  destruct s as [d l], t as [d' l']. unfold enc. cbn [fst snd]. intros E. injection E as -> E.
  f_equal. revert l' E. induction l as [|x l IH]; intros [|y l'] E; try discriminate; [reflexivity|].
  cbn [map] in E. injection E as E1 E2. apply (tk_inj TK) in E1. subst. f_equal. now apply IH.
Qed.

Lemma mk_ok d l : ok (d, l) -> mk tb n d (map idx l) = Ok (enc (d, l)).
Proof.
  intros H. unfold mk. rewrite tb_n. cbn [bind]. destruct (isfn_ok d l) as [b [E Hb]].
  rewrite E. cbn [bind]. rewrite (proj2 Hb H). reflexivity.
Qed.

(** Every object whose factors are table indices and that the constructor
    accepts is the encoding of a normal form. *)
Lemma mk_inv d f b :
  Forall (fun x => 0 <= x < Z.of_nat (t_order tbl))%Z f ->
  mk tb n d f = Ok b -> exists l, f = map idx l /\ ok (d, l) /\ b = enc (d, l).
Proof.
  intros HF H.
  assert (E : exists l, f = map idx l).
  { clear H. induction f as [|x f IH]; [now exists []|]. inversion HF as [|? ? Hx HF']; subst.
    destruct (tk_surj TK x Hx) as [t Ht]. destruct (IH HF') as [l ->]. exists (t :: l). cbn. now rewrite Ht. }
  destruct E as [l ->]. exists l. split; [reflexivity|].
  unfold mk in H. rewrite tb_n in H. cbn [bind] in H. destruct (isfn_ok d l) as [b' [E Hb]].
  rewrite E in H. cbn [bind] in H. destruct b'; cbn [assert_ bind] in H; [|discriminate].
  split; [now apply Hb|]. injection H as <-. reflexivity.
Qed.

Lemma canon_enc d l : nf l ->
  mk tb n (d + Z.of_nat (lead l)) (map idx (trim (dropD l))) = Ok (enc (canon d l)).
Proof. intros H. apply mk_ok. apply (canon_ok G eqd d l H). Qed.

Lemma mapM_tau k l : mapM (tau_right_at tbl k) (map idx l) = Ok (map idx (map (taupow k) l)).
Proof.
  induction l as [|x l IH]; [reflexivity|]. cbn [map mapM]. rewrite (tk_tau TK). cbn [bind].
  rewrite IH. reflexivity.
Qed.

Lemma taupow_ok k d l : ok (d, l) -> ok (d, map (taupow k) l).
Proof.
  intros [H1 [H2 H3]]. cbn [snd] in *. split; [|split]; cbn [snd].
  - now apply taupow_nf.
  - destruct (dropD_nil_or G eqd _ H2) as [->|[x [l' [-> N]]]]; [reflexivity|]. cbn.
    destruct (eqd (taupow k x) D) as [E|]; [|reflexivity].
    exfalso. apply N. apply (taupow_inj G k). rewrite E. symmetry. apply taupow_D.
  - destruct l as [|x0 l0]; [reflexivity|].
    destruct (exists_last (l := x0 :: l0) ltac:(discriminate)) as [l' [y Ey]]. rewrite Ey in *.
    rewrite map_app. cbn [map]. apply trim_last. apply trim_last in H3. intros E. apply H3.
    apply (taupow_inj G k). rewrite E. symmetry. apply taupow_one.
Qed.

Theorem nf_mul_ok s t : ok s -> ok t -> nf_mul tb (enc s) (enc t) = Ok (enc (acts s t)).
Proof.
  intros Hs Ht. destruct s as [d1 l1], t as [d2 l2].
  rewrite (acts_mul G rn rn_ok eqd (tk_D1 TK)) by exact Ht.
  unfold nf_mul, enc at 1 2 3 4 5 6 7 8 9 10 11 12 13. cbn [o_n o_pow o_factors fst snd].
  rewrite Nat.eqb_refl. cbn [negb]. rewrite tb_n. cbn [bind].
  assert (Slow : 
     (conj <- mapM (tau_right_at tbl d2) (map idx l1) ;;
      '(d, f) <- product_normalised_factors tbl conj (map idx l2) ;;
      mk tb n (d1 + d2 + d) f) = Ok (enc (canon (d1 + d2) (NF (map (taupow d2) l1 ++ l2))))).
  { rewrite mapM_tau. cbn [bind].
    rewrite (product_ok _ _ d1 d2) by (try apply taupow_ok; assumption). cbn [bind].
    apply canon_enc. apply (NF_nf G rn rn_ok). }
  destruct (Z.eqb_spec d2 0) as [->|N]; [|exact Slow].
  assert (Fast : nf (l1 ++ l2) -> mk tb n d1 (map idx l1 ++ map idx l2) =
            Ok (enc (canon (d1 + 0) (NF (map (taupow 0) l1 ++ l2))))).
  { intros H. replace (map (taupow 0) l1) with l1 by (symmetry; apply map_id).
    pose proof (product_ok l1 l2 d1 0 Hs Ht) as K.
    rewrite <- (canon_enc (d1 + 0)) by apply (NF_nf G rn rn_ok).
    (* the fast path of product_normalised_factors gives the same list *)
    rewrite (NF_fix G rn rn_ok) in * by exact H.
    assert (K2 : product_normalised_factors tbl (map idx l1) (map idx l2) = Ok (0%Z, map idx l1 ++ map idx l2)).
    { unfold product_normalised_factors. destruct l1 as [|x l1]; [reflexivity|].
      destruct l2 as [|y l2]; [reflexivity|].
      destruct (exists_last (l := x :: l1) ltac:(discriminate)) as [p0 [s Es]].
      assert (EL : last (map idx (x :: l1)) (idx x) = idx s) by (rewrite Es; apply last_map_idx).
      cbn [map] in EL |- *. rewrite EL. destruct (tk_isnorm TK s y) as [b [Eb Hb]]. rewrite Eb. cbn [bind].
      assert (b = true).
      { apply Hb. rewrite Es, <- app_assoc in H. apply nf_app_r in H. apply H. }
      subst b. reflexivity. }
    rewrite K2 in K. injection K as K3 K4.
    rewrite <- K3, <- K4. f_equal. lia. }
  destruct l1 as [|x l1]; [cbn [map bind]; apply Fast; apply Ht|].
  destruct l2 as [|y l2].
  { cbn [map bind]. apply Fast. rewrite app_nil_r. apply Hs. }
  destruct (exists_last (l := x :: l1) ltac:(discriminate)) as [p0 [s Es]].
  assert (EL : last (map idx (x :: l1)) (idx x) = idx s) by (rewrite Es; apply last_map_idx).
  destruct (tk_isnorm TK s y) as [b [Eb Hb]].
  cbn [map] in EL, Slow, Fast |- *. rewrite EL, Eb. cbn [bind]. destruct b.
  - apply Fast. rewrite Es. rewrite <- app_assoc. cbn [List.app].
    destruct Hs as [Hp _]. cbn [snd] in Hp. rewrite Es in Hp.
    destruct Ht as [Hq _]. cbn [snd] in Hq.
    assert (Hn : nrm G s y) by now apply Hb.
    clear -Hp Hq Hn. induction p0 as [|t p0 IHp]; cbn [List.app].
    * split; [exact Hn|exact Hq].
    * cbn [List.app] in Hp. destruct Hp as [H1 H2]. split; [|now apply IHp].
      destruct p0; exact H1.
  - exact Slow.
Qed.

(** ** Combing letters to the left *)
Definition settle_step (xp : T * Z) (s : Z * list T) : Z * list T :=
  ((fst s + snd xp)%Z, taupow (fst s) (fst xp) :: snd s).

Lemma settle_loop (step : Z * list Z -> nat -> res (Z * list Z)) (xs : list (T * Z)) :
  (forall dp f i x p, nth_error xs i = Some (x, p) -> get f i = Ok (idx x) -> length f = length xs ->
     step (dp, f) i = Ok ((dp + p)%Z, upd f i (idx (taupow dp x)))) ->
  forall pre suf dp h, xs = pre ++ suf -> length h = length suf ->
  foldM step (rev (seq 0 (length pre))) (dp, map idx (map fst pre) ++ map idx h) =
  let s := fold_right settle_step (dp, h) pre in Ok (fst s, map idx (snd s)).
Proof.
  intros HS pre. induction pre as [|[x p] pre IH] using rev_ind; intros suf dp h E L.
  - reflexivity.
  - rewrite app_length. cbn [length]. rewrite seq_app, rev_app_distr. cbn [seq rev List.app plus foldM].
    rewrite !map_app. cbn [map fst]. rewrite <- app_assoc. cbn [List.app].
    assert (L2 : length (map idx (map fst pre)) = length pre) by now rewrite !map_length.
    rewrite (HS _ _ _ x p).
    + cbn [bind].
      assert (EU : upd (map idx (map fst pre) ++ idx x :: map idx h) (length pre) (idx (taupow dp x)) =
         map idx (map fst pre) ++ map idx (taupow dp x :: h)).
      { rewrite <- L2. generalize (map idx (map fst pre)). clear. induction l as [|y l IH]; [reflexivity|].
        cbn. now rewrite IH. }
      rewrite EU. rewrite (IH ((x, p) :: suf)).
      * rewrite fold_right_app. reflexivity.
      * rewrite E, <- app_assoc. reflexivity.
      * cbn [length]. now rewrite L.
    + rewrite E, <- app_assoc. cbn [List.app]. rewrite nth_error_app2, Nat.sub_diag by lia. reflexivity.
    + rewrite (get_ok _ _ 0%Z) by (rewrite app_length, L2; cbn; lia).
      rewrite app_nth2, L2, Nat.sub_diag by lia. reflexivity.
    + rewrite app_length, L2, E, !app_length. cbn [length]. rewrite map_length. lia.
Qed.

Lemma settle_state (xs : list (T * Z)) d0 :
  let s := fold_right settle_step (d0, []) xs in
  canon (fst s) (NF (snd s)) = fold_right (fun xp s => shift (snd xp) (act (fst xp) s)) (d0, []) xs.
Proof.
  induction xs as [|[x p] xs IH].
  - cbn. unfold GermAct.canon. cbn. f_equal. lia.
  - cbn [fold_right] in *. rewrite <- IH.
    set (s := fold_right settle_step (d0, []) xs) in *. destruct s as [dp f].
    unfold settle_step. cbn [fst snd]. rewrite canon_shift. f_equal.
    rewrite (act_canon G rn rn_ok eqd (tk_D1 TK)). reflexivity.
Qed.

Definition inv_state (s : state) : state :=
  fold_right act_inv ((- fst s)%Z, []) (rev (snd s)).

Lemma inv_state_ok s : ok (inv_state s).
Proof.
  unfold inv_state. generalize (rev (snd s)). intros l. induction l as [|x l IH]; cbn [fold_right].
  - apply ok_nil.
  - now apply (act_inv_ok G rn rn_ok eqd).
Qed.

Theorem nf_inv_ok s : ok s -> nf_inv tb (enc s) = Ok (enc (inv_state s)).
Proof.
  intros Hs. destruct s as [d l]. change (enc (d, l)) with (NFObj n d (map idx l)). unfold nf_inv. cbn [o_n o_pow o_factors fst snd].
  rewrite tb_n. cbn [bind].
  assert (E : mapM (pyget (t_lc tbl)) (rev (map idx l)) = Ok (map idx (map (lc G) (rev l)))).
  { rewrite <- map_rev. generalize (rev l). intros r. induction r as [|x r IH]; [reflexivity|].
    cbn [map mapM]. rewrite (tk_lc TK). cbn [bind]. now rewrite IH. }
  rewrite E. cbn [bind].
  set (xs := map (fun x => (lc G x, (-1)%Z)) (rev l)).
  assert (E2 : map (lc G) (rev l) = map fst xs) by (unfold xs; now rewrite map_map).
  rewrite E2.
  assert (E3 : length (map idx (map fst xs)) = length xs) by now rewrite !map_length. rewrite E3.
  pose proof (settle_loop (fun '(dp, f) i => x <- get f i ;; y <- tau_right_at tbl dp x ;; Ok ((dp - 1)%Z, upd f i y))
     xs) as K.
  specialize (K ltac:(intros dp f i x p H1 H2 _; cbn beta iota; rewrite H2; cbn [bind]; rewrite (tk_tau TK); cbn [bind];
     apply nth_error_In in H1; unfold xs in H1; apply in_map_iff in H1; destruct H1 as [? [H1 _]];
     injection H1 as <- <-; reflexivity)).
  specialize (K xs [] (- d)%Z [] (eq_sym (app_nil_r _)) eq_refl). cbn [map] in K. rewrite app_nil_r in K.
  cbn zeta in K. rewrite K. cbn [bind fst snd]. clear K.
  pose proof (settle_state xs (- d)) as K2. cbn zeta in K2.
  rewrite normalise_factors_ok. cbn [bind].
  rewrite canon_enc by apply (NF_nf G rn rn_ok). rewrite K2. apply f_equal, f_equal.
  unfold inv_state, xs. cbn [fst snd]. generalize (rev l). intros r.
  clear. induction r as [|x r IH]; [reflexivity|].
  cbn [map fold_right fst snd]. now rewrite IH.
Qed.

(** ** Words *)
Let D1 := tk_D1 TK.
Let lrange := tk_range TK.
Let lmul := tk_mul TK.
Let latom := tk_atom TK.
Let abraid := tk_braid TK.
Let afar := tk_far TK.
Let alift := tk_actlift TK.

Lemma inv_state_word s : braid_eq n (word_of (inv_state s)) (winv (word_of s)).
Proof.
  destruct s as [d l]. unfold inv_state. cbn [fst snd]. unfold GermBraid.word_of at 2. cbn [fst snd].
  rewrite winv_app.
  assert (K : forall r w, in_range n w -> braid_eq n (word_of ((- d)%Z, [])) w ->
     braid_eq n (word_of (fold_right act_inv ((- d)%Z, []) (rev r))) (winv (liftl G lift r) ++ w)).
  { induction r as [|x r IH] using rev_ind; intros w Hw E; [exact E|].
    rewrite rev_app_distr. cbn [rev List.app fold_right].
    rewrite (act_inv_word G rn rn_ok eqd n lift lrange lmul). rewrite IH by eassumption.
    unfold liftl. rewrite flat_map_app. cbn [flat_map]. rewrite app_nil_r, winv_app, <- app_assoc. reflexivity. }
  apply K.
  - apply in_range_winv. apply in_range_wpow. apply lrange.
  - unfold GermBraid.word_of. cbn [fst snd flat_map liftl]. rewrite app_nil_r.
    apply (be_cancel_l n (wpow (lift D) d)); [apply in_range_wpow, lrange|].
    rewrite <- wpow_add by apply lrange. rewrite be_inv_r by (apply in_range_wpow, lrange).
    replace (d + - d)%Z with 0%Z by lia. reflexivity.
Qed.

(** [b] is a valid object representing the braid of the word [w] *)
Definition reps (b : nfobj) (w : bword) : Prop :=
  exists s, ok s /\ b = enc s /\ braid_eq n (word_of s) w.

Lemma reps_nfw w : in_range n w -> reps (enc (nfw w)) w.
Proof.
  intros H. exists (nfw w). split; [apply (nfw_ok G rn rn_ok eqd)|].
  split; [reflexivity|]. now apply (nfw_sound G rn rn_ok eqd n lift atom lrange lmul latom).
Qed.
Lemma reps_mor b u v : braid_eq n u v -> reps b u -> reps b v.
Proof. intros H [s [H1 [H2 H3]]]. exists s. repeat split; try apply H1; try assumption. now rewrite H3. Qed.
Lemma reps_range b w : reps b w -> in_range n w.
Proof. intros [s [_ [_ H]]]. apply be_in_range in H. apply H. apply word_of_range, lrange. Qed.
Lemma reps_word s : ok s -> reps (enc s) (word_of s).
Proof. intros H. exists s. repeat split; try apply H; reflexivity. Qed.
Lemma reps_eq a b u v : reps a u -> reps b v -> (a = b <-> braid_eq n u v).
Proof.
  intros [s [H1 [-> H2]]] [t [H3 [-> H4]]]. rewrite <- H2, <- H4.
  rewrite <- (word_of_inj G rn rn_ok eqd D1 n lift atom lrange lmul latom abraid afar alift s t H1 H3).
  split; [apply enc_inj|congruence].
Qed.
Lemma reps_nfw_eq b w : reps b w -> b = enc (nfw w).
Proof. intros H. rewrite (reps_eq b _ w w); [reflexivity|exact H|]. apply reps_nfw. now apply reps_range in H. Qed.

Theorem reps_mul a b u v : reps a u -> reps b v -> exists c, nf_mul tb a b = Ok c /\ reps c (u ++ v).
Proof.
  intros [s [H1 [-> H2]]] [t [H3 [-> H4]]]. eexists. split; [apply nf_mul_ok; assumption|].
  eexists. split; [|split; [reflexivity|]].
  - unfold GermAct.acts. apply shift_ok. now apply (actl_ok G rn rn_ok eqd).
  - rewrite (acts_word G rn rn_ok eqd D1 n lift atom lrange lmul latom abraid afar alift) by exact H3.
    now rewrite H2, H4.
Qed.
Theorem reps_inv a u : reps a u -> exists c, nf_inv tb a = Ok c /\ reps c (winv u).
Proof.
  intros [s [H1 [-> H2]]]. eexists. split; [apply nf_inv_ok; assumption|].
  eexists. split; [apply inv_state_ok|]. split; [reflexivity|]. now rewrite inv_state_word, H2.
Qed.
Theorem reps_id : exists c, nf_identity tb n = Ok c /\ reps c [].
Proof.
  exists (enc (0%Z, [])). split; [apply (mk_ok 0 []), ok_nil|].
  exists (0%Z, []). split; [apply ok_nil|]. split; reflexivity.
Qed.

Lemma pow_loop_ok fuel : forall e acc p2 u v,
  (0 <= e < 2 ^ Z.of_nat fuel)%Z -> reps acc u -> reps p2 v ->
  exists c, pow_loop tb (S fuel) e acc p2 = Ok c /\ reps c (u ++ wpow v e).
Proof.
  induction fuel as [|fuel IH]; intros e acc p2 u v He Ha Hp.
  - cbn in He. assert (e = 0%Z) by lia. subst. exists acc. split; [reflexivity|]. now rewrite app_nil_r.
  - change (pow_loop tb (S (S fuel)) e acc p2) with
      (if (e =? 0)%Z then Ok acc else
        acc' <- (if (e mod 2 =? 1)%Z then nf_mul tb acc p2 else Ok acc) ;;
        pow2' <- nf_mul tb p2 p2 ;; pow_loop tb (S fuel) (e / 2) acc' pow2').
    destruct (Z.eqb_spec e 0) as [->|N].
    { exists acc. split; [reflexivity|]. now rewrite app_nil_r. }
    destruct (reps_mul _ _ _ _ Ha Hp) as [a1 [E1 R1]].
    destruct (reps_mul _ _ _ _ Hp Hp) as [p' [E2 R2]].
    assert (Hv : in_range n v) by now apply reps_range in Hp.
    assert (Hb : (0 <= e / 2 < 2 ^ Z.of_nat fuel)%Z).
    { rewrite Nat2Z.inj_succ, Z.pow_succ_r in He by lia. split; [apply Z.div_pos; lia|].
      apply Z.div_lt_upper_bound; lia. }
    assert (Hh : braid_eq n (wpow (v ++ v) (e / 2)) (wpow v (2 * (e / 2)))).
    { generalize (e / 2)%Z. intros h. pattern h. apply Zind2.
      - reflexivity.
      - intros k IHk. rewrite wpow_succ by (apply in_range_app; auto). rewrite IHk.
        replace (2 * (k + 1))%Z with (1 + (1 + 2 * k))%Z by lia.
        rewrite !wpow_add, wpow_1 by exact Hv. now rewrite <- app_assoc.
      - intros k IHk. rewrite wpow_pred by (apply in_range_app; auto). rewrite IHk.
        replace (2 * (k - 1))%Z with (-1 + (-1 + 2 * k))%Z by lia.
        rewrite !wpow_add, wpow_m1 by exact Hv. now rewrite winv_app, <- app_assoc. }
    pose proof (Z.div_mod e 2 ltac:(lia)) as DM. pose proof (Z.mod_pos_bound e 2 ltac:(lia)) as MB.
    rewrite E2. destruct (Z.eqb_spec (e mod 2) 1) as [M|M].
    + rewrite E1. cbn [bind]. destruct (IH (e / 2)%Z a1 p' _ _ Hb R1 R2) as [c [E3 R3]].
      exists c. split; [exact E3|]. eapply reps_mor; [|exact R3]. rewrite Hh.
      replace e with (1 + 2 * (e / 2))%Z at 2 by lia.
      rewrite wpow_add, wpow_1 by exact Hv. now rewrite <- app_assoc.
    + cbn [bind]. destruct (IH (e / 2)%Z acc p' _ _ Hb Ha R2) as [c [E3 R3]].
      exists c. split; [exact E3|]. eapply reps_mor; [|exact R3]. rewrite Hh.
      replace (2 * (e / 2))%Z with e by lia. reflexivity.
Qed.

Lemma wpow_winv v k : in_range n v -> braid_eq n (wpow (winv v) k) (wpow v (- k)).
Proof.
  intros Hv. pattern k. apply Zind2.
  - reflexivity.
  - intros j IH. rewrite wpow_succ by now apply in_range_winv. rewrite IH.
    replace (- (j + 1))%Z with (- j - 1)%Z by lia. now rewrite wpow_pred.
  - intros j IH. rewrite wpow_pred by now apply in_range_winv. rewrite IH.
    replace (- (j - 1))%Z with (- j + 1)%Z by lia. now rewrite wpow_succ, winv_winv.
Qed.

Theorem reps_pow a u k : reps a u -> exists c, nf_pow tb a k = Ok c /\ reps c (wpow u k).
Proof.
  intros Ha. assert (Hu : in_range n u) by now apply reps_range in Ha.
  assert (En : o_n a = n) by (destruct Ha as [s [_ [-> _]]]; reflexivity).
  unfold nf_pow. rewrite En. destruct reps_id as [i [Ei Ri]]. rewrite Ei. cbn [bind].
  destruct (Z.eqb_spec k 0) as [->|N]; [exists i; auto|].
  assert (HF : Z.to_nat (Z.log2 (Z.abs k) + 2) = S (Z.to_nat (Z.log2 (Z.abs k) + 1))).
  { pose proof (Z.log2_nonneg (Z.abs k)). lia. }
  rewrite HF.
  assert (B : (0 <= Z.abs k < 2 ^ Z.of_nat (Z.to_nat (Z.log2 (Z.abs k) + 1)))%Z).
  { pose proof (Z.log2_nonneg (Z.abs k)). rewrite Z2Nat.id by lia.
    pose proof (Z.log2_spec (Z.abs k) ltac:(lia)). unfold Z.succ in *. lia. }
  destruct (Z.ltb_spec 0 k) as [P|P].
  - cbn [bind]. destruct (pow_loop_ok _ _ _ _ _ _ B Ri Ha) as [c [E R]]. exists c. split; [exact E|].
    rewrite Z.abs_eq in R by lia. exact R.
  - destruct (reps_inv _ _ Ha) as [j [Ej Rj]]. rewrite Ej. cbn [bind].
    destruct (pow_loop_ok _ _ _ _ _ _ B Ri Rj) as [c [E R]]. exists c. split; [exact E|].
    eapply reps_mor; [|exact R]. cbn [List.app]. rewrite wpow_winv by exact Hu.
    rewrite Z.abs_neq by lia. now rewrite Z.opp_involutive.
Qed.

(** ** Artin words *)
Lemma expand_app u v : expand (u ++ v) = expand u ++ expand v.
Proof. apply flat_map_app. Qed.

Lemma repeat_snoc {B} (x : B) k : repeat x k ++ [x] = repeat x (S k).
Proof. induction k as [|k IH]; [reflexivity|]. cbn in *. now rewrite IH. Qed.

Lemma expand_winv w : expand (map (fun l => (fst l, - snd l)%Z) (rev w)) = winv (expand w).
Proof.
  induction w as [|[i e] w IH]; [reflexivity|]. cbn [rev]. rewrite map_app, expand_app, IH.
  unfold expand at 3. cbn [flat_map fst snd]. rewrite winv_app. f_equal.
  unfold expand. cbn [map flat_map fst snd]. rewrite app_nil_r. unfold winv. rewrite map_repeat, rev_repeat.
  cbn [fst snd]. replace (Z.abs_nat (- e)) with (Z.abs_nat e) by lia.
  destruct (Z.eq_dec e 0) as [->|N]; [reflexivity|]. f_equal. f_equal.
  destruct (Z.leb_spec 0 (- e)), (Z.leb_spec 0 e); cbn; try reflexivity; lia.
Qed.

Lemma artin_word_any s : exists w, artin_word tb (enc s) = Ok w /\ expand w = word_of s /\ word_ok n w /\ Forall (fun l => Z.abs (snd l) = 1%Z) w.
Proof.
  destruct s as [d l]. unfold artin_word, enc. cbn [o_n o_pow o_factors fst snd].
  rewrite tb_n. cbn [bind]. rewrite (tk_DD TK), (tk_word TK). cbn [bind].
  assert (E : mapM (pyget (t_word tbl)) (map idx l) = Ok (map wd l)).
  { induction l as [|x l IH]; [reflexivity|]. cbn [map mapM]. rewrite (tk_word TK). cbn [bind].
    now rewrite IH. }
  rewrite E. cbn [bind]. eexists. split; [reflexivity|].
  assert (K : forall P : Z * Z -> Prop, (forall x, Forall P (wd x)) ->
     Forall P (map (fun l => (fst l, - snd l)%Z) (rev (wd D))) ->
     Forall P (concat (repeat (if (d <? 0)%Z then map (fun l => (fst l, - snd l)%Z) (rev (wd D)) else wd D)
         (Z.abs_nat d)) ++ concat (map wd l))).
  { intros P H1 H2. apply Forall_app. split.
    - apply Forall_concat'. apply Forall_forall. intros x Hx. apply repeat_spec in Hx. subst.
      destruct (d <? 0)%Z; [exact H2|apply H1].
    - apply Forall_concat'. apply Forall_forall. intros x Hx. apply in_map_iff in Hx.
      destruct Hx as [y [<- _]]. apply H1. }
  split; [|split].
  - rewrite expand_app. unfold GermBraid.word_of, GermBraid.liftl. cbn [fst snd]. f_equal.
    + unfold wpow. destruct (Z.ltb_spec d 0).
      * destruct (Z.leb_spec 0 d); [lia|]. replace (Z.abs_nat d) with (Z.to_nat (- d)) by lia.
        generalize (Z.to_nat (- d)). intros k. induction k as [|k IH]; [reflexivity|].
        cbn [repeat concat]. rewrite expand_app, IH, expand_winv. reflexivity.
      * destruct (Z.leb_spec 0 d); [|lia]. replace (Z.abs_nat d) with (Z.to_nat d) by lia.
        generalize (Z.to_nat d). intros k. induction k as [|k IH]; [reflexivity|].
        cbn [repeat concat]. rewrite expand_app, IH. reflexivity.
    + clear. induction l as [|x l IH]; [reflexivity|]. cbn [map concat flat_map]. rewrite expand_app, IH. reflexivity.
  - apply K; [intros x; apply (tk_wdok TK)|]. apply Forall_forall. intros y Hy. apply in_map_iff in Hy.
    destruct Hy as [z [<- Hz]]. apply in_rev in Hz. cbn [fst].
    pose proof (proj1 (tk_wdok TK D)) as F. unfold word_ok in F. rewrite Forall_forall in F. now apply F.
  - apply K; [intros x; apply (tk_wdok TK)|]. apply Forall_forall. intros y Hy. apply in_map_iff in Hy.
    destruct Hy as [z [<- Hz]]. apply in_rev in Hz. cbn [snd].
    pose proof (proj2 (tk_wdok TK D)) as F. rewrite Forall_forall in F. specialize (F _ Hz). lia.
Qed.

Lemma artin_word_ok s : ok s -> exists w, artin_word tb (enc s) = Ok w /\ expand w = word_of s /\ word_ok n w /\ Forall (fun l => Z.abs (snd l) = 1%Z) w.
Proof. intros _. apply artin_word_any. Qed.
Theorem reps_artin_word b u : reps b u -> exists w, artin_word tb b = Ok w /\ braid_eq n (expand w) u /\ word_ok n w /\ Forall (fun l => Z.abs (snd l) = 1%Z) w.
Proof.
  intros [s [H1 [-> H2]]]. destruct (artin_word_ok s H1) as [w [E1 [E2 E3]]].
  exists w. split; [exact E1|]. split; [|exact E3]. now rewrite E2.
Qed.

Lemma word_ok_range w : word_ok n w -> in_range n (expand w).
Proof.
  intros H. unfold in_range, expand. apply Forall_forall. intros [i e] Hi. apply in_flat_map in Hi.
  destruct Hi as [[j k] [H1 H2]]. apply repeat_spec in H2. injection H2 as -> ->. cbn [fst].
  unfold word_ok in H. rewrite Forall_forall in H. specialize (H _ H1). cbn in H. lia.
Qed.

(** the letters of a word, as the code queues them *)
Definition letters (w : list (Z * Z)) : list (T * Z) :=
  map (fun l : nat * bool => if snd l then (atom (fst l), 0%Z) else (lc G (atom (fst l)), (-1)%Z)) (expand w).

Lemma queue_ok w : word_ok n w ->
  foldM (fun '(factors, dps) '(i, e) =>
      g <- pyget (t_gens tbl) i ;;
      if (0 <=? e)%Z
      then Ok (factors ++ repeat g (Z.to_nat e), dps ++ repeat 0%Z (Z.to_nat e))
      else
        c <- pyget (t_lc tbl) g ;;
        Ok (factors ++ repeat c (Z.abs_nat e), dps ++ repeat (-1)%Z (Z.abs_nat e)))
    w ([], []) = Ok (map idx (map fst (letters w)), map snd (letters w)).
Proof.
  induction w as [|[i e] w IH] using rev_ind; intros H; [reflexivity|].
  unfold word_ok in H. apply Forall_app in H. destruct H as [H1 H2]. inversion H2 as [|? ? H3 _]; subst. cbn [fst] in H3.
  rewrite foldM_app, IH by exact H1. cbn [bind foldM].
  assert (Hg : pyget (t_gens tbl) i = Ok (idx (atom (Z.to_nat i)))).
  { replace i with (Z.of_nat (Z.to_nat i)) at 1 by lia. apply (tk_gens TK). lia. }
  rewrite Hg. cbn [bind]. unfold letters. rewrite expand_app.
  replace (expand [(i, e)]) with (repeat (Z.to_nat i, (0 <=? e)%Z) (Z.abs_nat e))
    by (unfold expand; cbn [flat_map fst snd]; now rewrite app_nil_r).
  rewrite !map_app, !map_repeat. cbn [fst snd].
  destruct (Z.leb_spec 0 e) as [P|P].
  - cbn [bind fst snd]. replace (Z.abs_nat e) with (Z.to_nat e) by lia. reflexivity.
  - rewrite (tk_lc TK). cbn [bind fst snd]. reflexivity.
Qed.

Theorem from_artin_word_ok w : word_ok n w -> from_artin_word tb n w = Ok (enc (nfw (expand w))).
Proof.
  intros Hw. unfold from_artin_word. rewrite tb_n. cbn [bind]. rewrite queue_ok by exact Hw. cbn [bind].
  set (xs := letters w).
  assert (E3 : length (map idx (map fst xs)) = length xs) by now rewrite !map_length. rewrite E3.
  pose proof (settle_loop (fun '(dp, f) i => x <- get f i ;; y <- tau_right_at tbl dp x ;;
      p <- get (map snd xs) i ;; Ok ((dp + p)%Z, upd f i y)) xs) as K.
  specialize (K ltac:(intros dp f i x p H1 H2 _; cbn beta iota; rewrite H2; cbn [bind]; rewrite (tk_tau TK); cbn [bind];
     rewrite (get_ok _ _ 0%Z) by (rewrite map_length; apply nth_error_Some; congruence); cbn [bind];
     erewrite (nth_error_nth (map snd xs)) by (apply map_nth_error; exact H1); reflexivity)).
  specialize (K xs [] 0%Z [] (eq_sym (app_nil_r _)) eq_refl). cbn [map] in K. rewrite app_nil_r in K.
  cbn zeta in K. rewrite K. cbn [bind fst snd]. clear K.
  pose proof (settle_state xs 0) as K2. cbn zeta in K2.
  rewrite normalise_factors_ok. cbn [bind].
  rewrite canon_enc by apply (NF_nf G rn rn_ok). rewrite K2. apply f_equal, f_equal.
  unfold xs, letters, GermBraid.nfw, GermBraid.actw. generalize (expand w).
  intros u. clear. induction u as [|[i e] u IH]; [reflexivity|].
  cbn [map fold_right]. rewrite IH. unfold GermBraid.actletter. cbn [fst snd]. destruct e; cbn [fst snd].
  - now rewrite shift_0.
  - reflexivity.
Qed.

Corollary reps_from_artin_word w : word_ok n w ->
  exists b, from_artin_word tb n w = Ok b /\ reps b (expand w).
Proof.
  intros H. eexists. split; [now apply from_artin_word_ok|]. apply reps_nfw. now apply word_ok_range.
Qed.

(** ** normalise_factors on arbitrary sequences of divisors *)
Lemma reps_normalised l d : exists b,
   mk tb n (d + Z.of_nat (lead (NF l))) (map idx (trim (dropD (NF l)))) = Ok b /\ reps b (wpow (lift D) d ++ flat_map lift l).
Proof.
  eexists. split; [apply canon_enc; apply (NF_nf G rn rn_ok)|].
  exists (canon d (NF l)). split; [apply canon_ok; apply (NF_nf G rn rn_ok)|]. split; [reflexivity|].
  rewrite (canon_word G eqd n lift lrange lmul).
  apply be_app; [reflexivity|]. apply (NF_lift G rn rn_ok n lift lmul).
Qed.

Lemma index_map ds xs : ds = map div xs -> mapM (index tbl) ds = Ok (map idx xs).
Proof.
  intros ->. induction xs as [|x xs IH]; [reflexivity|]. cbn [map mapM]. rewrite (tk_index TK). cbn [bind].
  now rewrite IH.
Qed.

Lemma reps_from_div_seq size xs : (forall x, size (div x) = n) ->
  exists b, from_div_seq tb size n (map div xs) = Ok b /\ reps b (flat_map lift xs).
Proof.
  intros Hs. unfold from_div_seq.
  assert (E : forallb (fun d => n =? size d) (map div xs) = true).
  { apply forallb_forall. intros d Hd. apply in_map_iff in Hd. destruct Hd as [x [<- _]]. rewrite Hs.
    apply Nat.eqb_refl. }
  rewrite E. cbn [assert_ bind]. rewrite tb_n. cbn [bind]. rewrite (index_map _ xs eq_refl). cbn [bind].
  rewrite normalise_factors_ok. cbn [bind]. destruct (reps_normalised xs 0) as [b [E1 R]].
  exists b. split; [exact E1|exact R].
Qed.

(** ** Enumeration *)
Definition proper (x : T) : Prop := x <> one /\ x <> D.

Lemma nf_helper_ok k : forall x, exists ls, nf_helper tbl k (idx x) = Ok (map (map idx) ls) /\ NoDup ls /\ forall l, In l ls <-> (length l = k /\ nf (x :: l) /\ Forall proper l).
Proof.
  induction k as [|k IH]; intros x.
  - exists [[]]. split; [reflexivity|]. split; [constructor; [intros []|constructor]|].
    intros l. split.
    + intros [<-|[]]. repeat split. constructor.
    + intros [H _]. destruct l; [now left|discriminate].
  - cbn [nf_helper]. destruct (tk_follows TK x) as [ys [E [ND HI]]]. rewrite E. cbn [bind].
    assert (K : forall zs, exists lss,
      mapM (fun y => tails <- nf_helper tbl k y ;; Ok (map (cons y) tails)) (map idx zs) = Ok (map (map (map idx)) lss) /\ Forall2 (fun z ls => NoDup ls /\ forall l, In l ls <-> exists t, l = z :: t /\ length t = k /\ nf (z :: t) /\ Forall proper t) zs lss).
    { induction zs as [|z zs IHz].
      - exists []. split; [reflexivity|constructor].
      - destruct IHz as [lss [E1 F1]]. destruct (IH z) as [ls [E2 [N2 H2]]].
        exists (map (cons z) ls :: lss). cbn [map mapM]. rewrite E2. cbn [bind]. rewrite E1. cbn [bind].
        split; [f_equal; f_equal; rewrite !map_map; reflexivity|].
        constructor; [|exact F1]. split.
        + apply FinFun.Injective_map_NoDup; [|exact N2]. intros a b Hab. now injection Hab.
        + intros l. rewrite in_map_iff. split.
          * intros [t [<- Ht]]. exists t. split; [reflexivity|]. now apply H2.
          * intros [t [-> Ht]]. exists t. split; [reflexivity|]. now apply H2. }
    destruct (K ys) as [lss [E2 F]]. rewrite E2. cbn [bind]. exists (concat lss).
    split; [f_equal; now rewrite concat_map|].
    assert (C : NoDup (concat lss) /\ forall l, In l (concat lss) <-> exists z t, In z ys /\ l = z :: t /\ length t = k /\ nf (z :: t) /\ Forall proper t).
    { clear E E2 HI K. induction F as [|z ls ys lss [N1 H1] F IHF].
      - split; [constructor|]. intros l. split; [intros []|intros [z [t [[] _]]]].
      - inversion ND as [|? ? NI ND']; subst. destruct (IHF ND') as [N2 H2]. split.
        + cbn [concat]. apply NoDup_app_intro; [assumption|assumption|].
          intros l Hl Hl'. apply H1 in Hl. apply H2 in Hl'. destruct Hl as [t [-> _]].
          destruct Hl' as [z' [t' [Hz [E' _]]]]. injection E' as <- _. contradiction.
        + intros l. cbn [concat]. rewrite in_app_iff, H1, H2. split.
          * intros [[t Ht]|[z' [t [Hz Ht]]]]; [exists z, t; split; [now left|exact Ht]|exists z', t; split; [now right|exact Ht]].
          * intros [z' [t [[<-|Hz] Ht]]]; [left; now exists t|right; now exists z', t]. }
    split; [apply C|]. intros l. rewrite (proj2 C). split.
    + intros [z [t [Hz [-> [Hl [Hn Hp]]]]]]. apply HI in Hz. destruct Hz as [Hz1 Hz2].
      split; [cbn; lia|]. split; [split; assumption|]. constructor; assumption.
    + intros [Hl [Hn Hp]]. destruct l as [|z t]; [discriminate|]. exists z, t. destruct Hn as [Hn1 Hn2].
      inversion Hp; subst. split; [apply HI; split; assumption|]. split; [reflexivity|].
      split; [cbn in Hl; lia|]. split; assumption.
Qed.

Lemma nrm_D x : nrm G x D -> x = D.
Proof.
  intros H. apply (rn_nrm G) in H. apply (rn_eq G rn rn_ok) in H.
  rewrite (rn_D_r G rn rn_ok) in H. now injection H.
Qed.
Lemma nrm_1 y : nrm G one y -> y = one.
Proof.
  intros H. apply (rn_nrm G) in H. apply (rn_eq G rn rn_ok) in H.
  rewrite (rn_one_l G rn rn_ok) in H. now injection H.
Qed.
Lemma nrm_D_l y : nrm G D y.
Proof.
  pose proof (rn_ok D y) as H. rewrite (rn_D_l G rn rn_ok) in H. cbn [fst snd] in H.
  destruct H as [c H]. apply H.
Qed.

Lemma nf_proper_head x l : x <> D -> nf (x :: l) -> Forall (fun y => y <> D) l.
Proof.
  revert x. induction l as [|y l IH]; intros x N H; [constructor|]. destruct H as [H1 H2].
  assert (y <> D) by (intros ->; apply N; now apply nrm_D). constructor; [assumption|]. now apply (IH y).
Qed.
Lemma nf_proper_last l x : x <> one -> nf (l ++ [x]) -> Forall (fun y => y <> one) l.
Proof.
  intros N. induction l as [|y l IH]; intros H; [constructor|]. cbn [List.app] in H. destruct H as [H1 H2].
  specialize (IH H2). constructor; [|exact IH]. intros ->. destruct l as [|z l].
  - cbn in H1. apply N. now apply nrm_1.
  - cbn in H1. inversion IH; subst. apply nrm_1 in H1. contradiction.
Qed.

Lemma ok_proper d l : ok (d, l) <-> nf l /\ Forall proper l.
Proof.
  unfold GermAct.ok. cbn [snd]. split.
  - intros [H1 [H2 H3]]. split; [exact H1|]. destruct l as [|x l]; [constructor|].
    destruct (dropD_nil_or G eqd _ H2) as [K|[x' [l' [K N]]]]; [discriminate|]. injection K as <- <-.
    pose proof (nf_proper_head _ _ N H1) as F1.
    destruct (exists_last (l := x :: l) ltac:(discriminate)) as [p0 [y Ey]].
    assert (Ny : y <> one) by (rewrite Ey in H3; now apply trim_last in H3).
    assert (F2 : Forall (fun y => y <> one) (x :: l)).
    { rewrite Ey. apply Forall_app. split; [|constructor; [exact Ny|constructor]].
      apply (nf_proper_last p0 y Ny). now rewrite <- Ey. }
    assert (F3 : Forall (fun y => y <> D) (x :: l)) by (constructor; assumption).
    clear -F2 F3. rewrite Forall_forall in *. intros z Hz. split; auto.
  - intros [H1 H2]. split; [exact H1|]. split.
    + destruct l as [|x l]; [reflexivity|]. inversion H2 as [|? ? [_ N] _]; subst. cbn.
      destruct (eqd x D); [contradiction|reflexivity].
    + destruct l as [|x l]; [reflexivity|].
      destruct (exists_last (l := x :: l) ltac:(discriminate)) as [p0 [y Ey]]. rewrite Ey in *.
      apply trim_last. apply Forall_app in H2. destruct H2 as [_ H2]. inversion H2 as [|? ? [N _] _]; subst. exact N.
Qed.

Lemma nf_D_l l : nf (D :: l) <-> nf l.
Proof.
  split; [apply nf_tail|]. intros H. destruct l as [|y l]; [split; constructor|]. split; [apply nrm_D_l|exact H].
Qed.

Lemma nf_glue p s l : nf (p ++ s :: l) <-> nf (p ++ [s]) /\ nf (s :: l).
Proof.
  induction p as [|x p IH]; cbn [List.app].
  - split; [|tauto]. intros H. split; [repeat split|exact H].
  - assert (E : forall m, nf (x :: p ++ m) <-> (match p ++ m with [] => True | y :: _ => nrm G x y end) /\ nf (p ++ m)).
    { intros m. destruct (p ++ m); cbn; tauto. }
    rewrite (E (s :: l)), (E [s]), IH. destruct p; cbn [List.app]; tauto.
Qed.

(** normal_forms after a factor [x] (D by default) *)
Lemma normal_forms_some x k : (0 <= k)%Z -> exists ls, normal_forms tbl k (Some (idx x)) = Ok (map (map idx) ls) /\
  NoDup ls /\ forall l, In l ls <-> (length l = Z.to_nat k /\ nf (x :: l) /\ Forall proper l).
Proof.
  intros Hk. unfold normal_forms. destruct (Z.leb_spec 0 k); [|lia]. cbn [assert_ bind start].
  apply nf_helper_ok.
Qed.
Lemma normal_forms_none k : (0 <= k)%Z -> exists ls, normal_forms tbl k None = Ok (map (map idx) ls) /\
  NoDup ls /\ forall l, In l ls <-> (length l = Z.to_nat k /\ ok (0%Z, l)).
Proof.
  intros Hk. unfold normal_forms. destruct (Z.leb_spec 0 k); [|lia]. cbn [assert_ bind start].
  rewrite (tk_DD TK). destruct (nf_helper_ok (Z.to_nat k) D) as [ls [E [N H1]]]. exists ls.
  split; [exact E|]. split; [exact N|]. intros l. rewrite H1, nf_D_l, ok_proper. tauto.
Qed.

(** *** counting *)
Definition Ncount (k : nat) (z : Z) : Z :=
  match nf_helper tbl k z with Ok l => Z.of_nat (length l) | Err _ => 0%Z end.
Definition wsum (k : nat) (c : list (Z * Z)) : Z := fold_right Z.add 0%Z (map (fun kv => snd kv * Ncount k (fst kv))%Z c).
Definition isidx (z : Z) : Prop := exists x, idx x = z.

Lemma Ncount_0 z : Ncount 0 z = 1%Z. Proof. reflexivity. Qed.
Lemma Ncount_S k x row : pyget (t_follows tbl) (idx x) = Ok row -> Forall isidx row ->
  Ncount (S k) (idx x) = fold_right Z.add 0%Z (map (Ncount k) row).
Proof.
  intros E HR. unfold Ncount at 1. cbn [nf_helper]. rewrite E. cbn [bind].
  assert (K : exists parts, mapM (fun x0 : Z => tails <- nf_helper tbl k x0 ;; Ok (map (cons x0) tails)) row = Ok parts /\
     Z.of_nat (length (concat parts)) = fold_right Z.add 0%Z (map (Ncount k) row)).
  { clear E. induction HR as [|z row [y <-] HR IH].
    - exists []. split; reflexivity.
    - destruct IH as [parts [E1 E2]]. destruct (nf_helper_ok k y) as [ls [E3 _]].
      exists (map (cons (idx y)) (map (map idx) ls) :: parts). cbn [mapM]. rewrite E3. cbn [bind]. rewrite E1.
      split; [reflexivity|]. cbn [concat map fold_right]. rewrite app_length, Nat2Z.inj_add, E2.
      unfold Ncount at 2. rewrite E3, !map_length. reflexivity. }
  destruct K as [parts [E1 E2]]. rewrite E1. cbn [bind]. exact E2.
Qed.

Lemma wsum_dict_add k d key v : wsum k (dict_add d key v) = (wsum k d + v * Ncount k key)%Z.
Proof.
  induction d as [|[k' v'] d IH]; cbn [dict_add].
  - unfold wsum. cbn. lia.
  - destruct (Z.eqb_spec key k') as [->|N].
    + unfold wsum. cbn [map fold_right fst snd]. lia.
    + unfold wsum in *. cbn [map fold_right fst snd]. lia.
Qed.
Lemma dict_add_keys d key v : Forall isidx (map fst d) -> isidx key -> Forall isidx (map fst (dict_add d key v)).
Proof.
  intros H1 H2. induction d as [|[k' v'] d IH]; cbn [dict_add].
  - constructor; [exact H2|constructor].
  - inversion H1; subst. destruct (Z.eqb_spec key k'); cbn [map fst]; constructor; auto.
Qed.

Lemma follows_row z : isidx z -> exists row, pyget (t_follows tbl) z = Ok row /\ Forall isidx row /\ NoDup row.
Proof.
  intros [x <-]. destruct (tk_follows TK x) as [ys [E [N _]]]. exists (map idx ys). split; [exact E|]. split.
  - apply Forall_forall. intros z Hz. apply in_map_iff in Hz. destruct Hz as [y [<- _]]. now exists y.
  - apply FinFun.Injective_map_NoDup; [|exact N]. intros a b. apply (tk_inj TK).
Qed.

Lemma count_step_ok counts : Forall isidx (map fst counts) ->
  exists c', count_step tbl counts = Ok c' /\ Forall isidx (map fst c') /\ forall k, wsum k c' = wsum (S k) counts.
Proof.
  intros H. unfold count_step.
  assert (K : forall acc, Forall isidx (map fst acc) -> exists c',
    foldM (fun acc '(x, c) => row <- pyget (t_follows tbl) x ;;
      Ok (fold_left (fun acc y => dict_add acc y c) row acc)) counts acc = Ok c' /\ Forall isidx (map fst c') /\
      forall k, wsum k c' = (wsum k acc + wsum (S k) counts)%Z).
  { induction counts as [|[z c] counts IH]; intros acc Ha.
    - exists acc. split; [reflexivity|]. split; [exact Ha|]. intros k. unfold wsum at 3. cbn. lia.
    - inversion H as [|? ? Hz H']; subst. cbn [fst] in Hz. destruct (follows_row z Hz) as [row [E [HR _]]].
      cbn [foldM]. rewrite E. cbn [bind].
      assert (R : Forall isidx (map fst (fold_left (fun acc y => dict_add acc y c) row acc)) /\
         forall k, wsum k (fold_left (fun acc y => dict_add acc y c) row acc) =
              (wsum k acc + c * fold_right Z.add 0%Z (map (Ncount k) row))%Z).
      { clear -HR Ha. revert acc Ha. induction HR as [|y row Hy HR IH]; intros acc Ha; cbn [fold_left].
        - split; [exact Ha|]. intros k. cbn. lia.
        - destruct (IH (dict_add acc y c)) as [I1 I2]; [now apply dict_add_keys|]. split; [exact I1|].
          intros k. rewrite I2, wsum_dict_add. cbn [map fold_right]. lia. }
      destruct R as [R1 R2]. destruct (IH H' _ R1) as [c' [E1 [E2 E3]]].
      exists c'. split; [exact E1|]. split; [exact E2|]. intros k. rewrite E3, R2.
      destruct Hz as [x <-]. rewrite <- (Ncount_S k x row E HR). unfold wsum at 4. cbn [map fold_right fst snd].
      unfold wsum. lia. }
  destruct (K [] (Forall_nil _)) as [c' [E1 [E2 E3]]]. exists c'. split; [exact E1|]. split; [exact E2|].
  intros k. rewrite E3. unfold wsum at 1. cbn. lia.
Qed.

Lemma count_loop_ok k : forall counts, Forall isidx (map fst counts) ->
  exists c', count_loop tbl k counts = Ok c' /\ forall j, wsum j c' = wsum (k + j) counts.
Proof.
  induction k as [|k IH]; intros counts H.
  - exists counts. split; reflexivity.
  - destruct (count_step_ok _ H) as [c1 [E1 [E2 E3]]]. destruct (IH _ E2) as [c2 [E4 E5]].
    exists c2. cbn [count_loop]. rewrite E1. cbn [bind]. split; [exact E4|]. intros j. rewrite E5, E3. reflexivity.
Qed.

Lemma dict_set_fresh d k v : ~ In k (map fst d) -> dict_set d k v = d ++ [(k, v)].
Proof.
  induction d as [|[k' v'] d IH]; intros H; [reflexivity|]. cbn [dict_set List.app].
  destruct (Z.eqb_spec k k') as [->|N]; [exfalso; apply H; now left|]. rewrite IH; [reflexivity|].
  intros K. apply H. now right.
Qed.
Lemma dict_set_row row d : NoDup row -> (forall z, In z row -> ~ In z (map fst d)) ->
  fold_left (fun d x => dict_set d x 1%Z) row d = d ++ map (fun x => (x, 1%Z)) row.
Proof.
  revert d. induction row as [|z row IH]; intros d N H; [symmetry; apply app_nil_r|].
  inversion N; subst. cbn [fold_left map]. rewrite dict_set_fresh by (apply H; now left).
  rewrite IH; [now rewrite <- app_assoc|assumption|]. intros y Hy. rewrite map_app, in_app_iff.
  intros [K|[<-|[]]]; [|contradiction]. apply (H y); [now right|exact K].
Qed.

Theorem count_ok following (Hf : match following with Some z => isidx z | None => True end) k ls :
  (0 <= k)%Z -> normal_forms tbl k following = Ok ls ->
  count_normal_forms tbl k following = Ok (Z.of_nat (length ls)).
Proof.
  intros Hk E. unfold normal_forms in E. destruct (Z.leb_spec 0 k); [|lia]. cbn [assert_ bind] in E.
  unfold count_normal_forms. destruct (Z.eqb_spec k 0) as [->|N].
  - cbn in E. injection E as <-. reflexivity.
  - assert (Hs : isidx (start tbl following)).
    { destruct following; [exact Hf|]. cbn [start]. rewrite (tk_DD TK). now exists D. }
    destruct (follows_row _ Hs) as [row [E1 [HR NR]]]. rewrite E1. cbn [bind].
    rewrite (dict_set_row row []) by (auto; intros; intros []). cbn [List.app].
    destruct (count_loop_ok (Z.to_nat (k - 1)) (map (fun x => (x, 1%Z)) row)) as [c [E2 E3]].
    { rewrite map_map. cbn [fst]. now rewrite map_id. }
    rewrite E2. cbn [bind]. f_equal. specialize (E3 0). rewrite Nat.add_0_r in E3.
    destruct Hs as [x Hx].
    assert (E4 : Ncount (S (Z.to_nat (k - 1))) (idx x) = Z.of_nat (length ls)).
    { unfold Ncount. rewrite Hx. replace (S (Z.to_nat (k - 1))) with (Z.to_nat k) by lia. now rewrite E. }
    rewrite <- E4. rewrite (Ncount_S _ x row) by (rewrite ?Hx; assumption).
    transitivity (wsum 0 c).
    { unfold wsum. f_equal. apply map_ext. intros [a b]. rewrite Ncount_0. cbn. lia. }
    rewrite E3. unfold wsum. rewrite map_map. f_equal. apply map_ext. intros a. cbn [fst snd]. lia.
Qed.

(** *** sampling *)
Lemma choice_In draw k l x : choice draw k l = Ok x -> In x l.
Proof.
  unfold choice. destruct l as [|y l]; [cbn; destruct (draw k); discriminate|].
  intros H. assert (B : draw k mod length (y :: l) < length (y :: l)) by (apply Nat.mod_upper_bound; discriminate).
  rewrite (get_ok _ _ y) in H by exact B. assert (E : nth (draw k mod length (y :: l)) (y :: l) y = x) by congruence.
  rewrite <- E. now apply nth_In.
Qed.

Lemma sample_loop_sound draw len : forall k x f, sample_loop tbl draw k len (idx x) = Ok f ->
  exists l, f = map idx l /\ length l = len /\ nf (x :: l) /\ Forall proper l.
Proof.
  induction len as [|len IH]; intros k x f H; cbn [sample_loop] in H.
  - injection H as <-. exists []. repeat split. constructor.
  - destruct (tk_follows TK x) as [ys [E [N HI]]]. rewrite E in H. cbn [bind] in H.
    destruct (choice draw k (map idx ys)) as [z|] eqn:C; [|discriminate]. cbn [bind] in H.
    apply choice_In, in_map_iff in C. destruct C as [y [<- Hy]]. apply HI in Hy.
    destruct (sample_loop tbl draw (S k) len (idx y)) as [r|] eqn:R; [|discriminate]. cbn [bind] in H.
    injection H as <-. destruct (IH _ _ _ R) as [l [-> [L [H1 H2]]]]. exists (y :: l).
    split; [reflexivity|]. split; [cbn; lia|]. split; [split; tauto|]. constructor; [split; apply Hy|exact H2].
Qed.

Lemma sample_loop_ext d1 d2 len : forall k x, (forall j, k <= j -> d1 j = d2 j) ->
  sample_loop tbl d1 k len x = sample_loop tbl d2 k len x.
Proof.
  induction len as [|len IH]; intros k x H; [reflexivity|]. cbn [sample_loop].
  destruct (pyget (t_follows tbl) x) as [row|]; [|reflexivity]. cbn [bind].
  unfold choice. rewrite (H k (le_n k)).
  destruct (get row (d2 k mod length row)) as [y|]; [|reflexivity]. cbn [bind].
  rewrite (IH (S k) y); [reflexivity|]. intros j Hj. apply H. lia.
Qed.

Lemma sample_loop_complete : forall l k x, nf (x :: l) -> Forall proper l ->
  exists draw, sample_loop tbl draw k (length l) (idx x) = Ok (map idx l).
Proof.
  induction l as [|y l IH]; intros k x H P; [exists (fun _ => 0); reflexivity|].
  destruct H as [H1 H2]. inversion P as [|? ? P1 P2]; subst. destruct (IH (S k) y H2 P2) as [draw Hd].
  destruct (tk_follows TK x) as [ys [E [N HI]]].
  assert (Hy : In y ys) by (apply HI; split; assumption).
  apply (In_nth _ _ one) in Hy. destruct Hy as [j [Hj1 Hj2]].
  exists (fun i => if i =? k then j else draw i). cbn [length sample_loop]. rewrite E. cbn [bind].
  unfold choice. rewrite Nat.eqb_refl, map_length, Nat.mod_small by exact Hj1.
  rewrite (get_map_idx _ _ one) by exact Hj1. cbn [bind]. rewrite Hj2.
  rewrite (sample_loop_ext _ draw), Hd; [reflexivity|]. intros i Hi. destruct (Nat.eqb_spec i k); [lia|reflexivity].
Qed.

Lemma sample_loop_total (tot : forall x, x <> one -> exists y, nrm G x y /\ proper y) draw len :
  forall k x, x <> one -> exists f, sample_loop tbl draw k len (idx x) = Ok f.
Proof.
  induction len as [|len IH]; intros k x Hx; [now exists []|]. cbn [sample_loop].
  destruct (tk_follows TK x) as [ys [E [N HI]]]. rewrite E. cbn [bind].
  destruct (tot x Hx) as [y Hy]. assert (Iy : In y ys) by (apply HI; apply Hy).
  assert (B : draw k mod length ys < length ys).
  { apply Nat.mod_upper_bound. destruct ys; [destruct Iy|discriminate]. }
  unfold choice. rewrite map_length, (get_map_idx _ _ one) by exact B. cbn [bind].
  destruct (IH (S k) (nth (draw k mod length ys) ys one)) as [f Hf].
  { apply (nth_In _ one) in B. now apply HI in B. }
  rewrite Hf. now eexists.
Qed.

(** ** inf and sup *)
Section InfSup.
Hypothesis lift_pos : forall x, Forall (fun l => snd l = true) (lift x).

Definition sup_of (s : state) : Z := (fst s + Z.of_nat (length (snd s)))%Z.

Lemma act_inf a s : (fst s <= fst (act a s))%Z.
Proof. destruct s as [d l]. unfold GermAct.act, GermAct.canon. cbn [fst]. lia. Qed.

Lemma trim_len l : length (trim l) <= length l.
Proof.
  destruct (trim_ones G eqd l) as [m E]. rewrite E at 2. rewrite app_length. lia.
Qed.

Lemma act_sup a s : (sup_of (act a s) <= sup_of s + 1)%Z.
Proof.
  destruct s as [d l]. unfold sup_of, GermAct.act, GermAct.canon. cbn [fst snd].
  set (m := lm G rn (taupow d a) l). assert (L : length m = S (length l)) by apply lm_length.
  pose proof (trim_len (dropD m)). pose proof (lead_dropD G eqd m) as E.
  assert (length m = lead m + length (dropD m)). { rewrite E at 1. rewrite app_length, repeat_length. reflexivity. }
  lia.
Qed.
Lemma act_inv_sup a s : (sup_of (act_inv a s) <= sup_of s)%Z.
Proof. unfold GermAct.act_inv. pose proof (act_sup (lc G a) s). unfold sup_of, GermAct.shift in *. cbn [fst snd]. lia. Qed.

Lemma actw_pos_inf u s : Forall (fun l => snd l = true) u -> (fst s <= fst (actw u s))%Z.
Proof.
  induction 1 as [|[i e] u He Hu IH]; [cbn; lia|]. cbn [GermBraid.actw fold_right]. cbn [snd] in He. subst e.
  unfold GermBraid.actletter at 1. cbn [fst snd]. pose proof (act_inf (atom i) (actw u s)). unfold GermBraid.actw in *. lia.
Qed.
Lemma actw_neg_sup u s : Forall (fun l => snd l = false) u -> (sup_of (actw u s) <= sup_of s)%Z.
Proof.
  induction 1 as [|[i e] u He Hu IH]; [cbn; lia|]. cbn [GermBraid.actw fold_right]. cbn [snd] in He. subst e.
  unfold GermBraid.actletter at 1. cbn [fst snd]. pose proof (act_inv_sup (atom i) (actw u s)). unfold GermBraid.actw in *. lia.
Qed.

Lemma liftl_pos l : Forall (fun x => snd x = true) (flat_map lift l).
Proof. induction l as [|x l IH]; [constructor|]. cbn. apply Forall_app. split; [apply lift_pos|exact IH]. Qed.

Lemma positive_app u v : positive n u -> positive n v -> positive n (u ++ v).
Proof.
  intros [u' [H1 [H2 H3]]] [v' [H4 [H5 H6]]]. exists (u' ++ v'). split; [now apply in_range_app|].
  split; [apply Forall_app; now split|]. now rewrite H3, H6.
Qed.
Lemma positive_lift_ x : positive n (lift x).
Proof. exists (lift x). split; [apply lrange|]. split; [apply lift_pos|reflexivity]. Qed.

Lemma inf_spec s k : ok s -> (positive n (wpow (lift D) (- k) ++ word_of s) <-> (k <= fst s)%Z).
Proof.
  intros Hs. destruct s as [d l]. cbn [fst]. split.
  - intros [u [H1 [H2 H3]]].
    assert (E : braid_eq n (word_of (d, l)) (wpow (lift D) k ++ u)).
    { rewrite <- H3, app_assoc, <- wpow_add by apply lrange.
      replace (k + - k)%Z with 0%Z by lia. reflexivity. }
    assert (E2 : (d, l) = shift k (nfw u)).
    { rewrite <- (nfw_word_of G rn rn_ok eqd D1 n lift atom lrange abraid afar alift _ Hs).
      rewrite (nfw_complete G rn rn_ok eqd D1 n atom abraid afar _ _ E).
      unfold GermBraid.nfw at 1. rewrite actw_app.
      apply (actw_DW G rn rn_ok eqd D1 n lift atom lrange abraid afar alift). apply (nfw_ok G rn rn_ok eqd). }
    pose proof (actw_pos_inf u (0%Z, []) H2) as K. unfold GermBraid.nfw in E2.
    unfold GermAct.shift in E2. injection E2 as E3 _. cbn [fst] in K. lia.
  - intros Hk. exists (wpow (lift D) (d - k) ++ flat_map lift l). split; [|split].
    + apply in_range_app. split; [apply in_range_wpow, lrange|]. apply liftl_range, lrange.
    + apply Forall_app. split; [|apply liftl_pos]. unfold wpow. destruct (Z.leb_spec 0 (d - k)); [|lia].
      apply Forall_concat'. apply Forall_forall. intros x Hx. apply repeat_spec in Hx. subst. apply lift_pos.
    + unfold GermBraid.word_of. cbn [fst snd]. rewrite app_assoc, <- wpow_add by apply lrange.
      replace (- k + d)%Z with (d - k)%Z by lia. reflexivity.
Qed.

Lemma winv_liftl_D l : positive n (winv (flat_map lift l) ++ wpow (lift D) (Z.of_nat (length l))).
Proof.
  induction l as [|x l IH].
  - exists []. split; [constructor|]. split; [constructor|reflexivity].
  - cbn [flat_map length]. rewrite winv_app, <- app_assoc.
    assert (E : braid_eq n (winv (lift x) ++ wpow (lift D) (Z.of_nat (S (length l))))
       (wpow (lift D) (Z.of_nat (length l)) ++ lift (taupow (Z.of_nat (length l)) (rc G x)))).
    { rewrite <- (lift_taupow G n lift lrange lmul).
      apply (be_cancel_l n (lift x)); [apply lrange|]. rewrite !app_assoc, be_inv_r by apply lrange.
      cbn [List.app]. rewrite <- lmul by apply red_rc. rewrite mul_rc.
      replace (Z.of_nat (S (length l))) with (Z.of_nat (length l) + 1)%Z by lia. now rewrite wpow_succ. }
    assert (P : positive n ((winv (flat_map lift l) ++ wpow (lift D) (Z.of_nat (length l))) ++
                 lift (taupow (Z.of_nat (length l)) (rc G x)))).
    { apply positive_app; [exact IH|apply positive_lift_]. }
    destruct P as [u [P1 [P2 P3]]]. exists u. split; [exact P1|]. split; [exact P2|].
    rewrite E, app_assoc. exact P3.
Qed.

Lemma sup_spec s k : ok s -> (positive n (winv (word_of s) ++ wpow (lift D) k) <-> (sup_of s <= k)%Z).
Proof.
  intros Hs. destruct s as [d l]. unfold sup_of. cbn [fst snd]. split.
  - intros [u [H1 [H2 H3]]].
    assert (E : braid_eq n (word_of (d, l)) (wpow (lift D) k ++ winv u)).
    { rewrite <- H3. rewrite winv_app, winv_winv, app_assoc, be_inv_r by (apply in_range_wpow, lrange). reflexivity. }
    assert (E2 : (d, l) = shift k (nfw (winv u))).
    { rewrite <- (nfw_word_of G rn rn_ok eqd D1 n lift atom lrange abraid afar alift _ Hs).
      rewrite (nfw_complete G rn rn_ok eqd D1 n atom abraid afar _ _ E).
      unfold GermBraid.nfw at 1. rewrite actw_app.
      apply (actw_DW G rn rn_ok eqd D1 n lift atom lrange abraid afar alift). apply (nfw_ok G rn rn_ok eqd). }
    assert (K : (sup_of (nfw (winv u)) <= 0)%Z).
    { apply (actw_neg_sup (winv u) (0%Z, [])). unfold winv. apply Forall_rev. apply Forall_forall.
      intros [i e] Hi. apply in_map_iff in Hi. destruct Hi as [[j f] [E3 Hj]]. injection E3 as <- <-.
      rewrite Forall_forall in H2. apply H2 in Hj. cbn in *. now subst. }
    unfold sup_of, GermAct.shift in *. destruct (nfw (winv u)) as [d' l'] eqn:E4. cbn [fst snd] in *.
    injection E2 as -> ->. lia.
  - intros Hk. unfold GermBraid.word_of. cbn [fst snd]. rewrite winv_app, <- app_assoc.
    assert (E : braid_eq n (winv (wpow (lift D) d) ++ wpow (lift D) k)
                 (wpow (lift D) (Z.of_nat (length l)) ++ wpow (lift D) (k - d - Z.of_nat (length l)))).
    { apply (be_cancel_l n (wpow (lift D) d)); [apply in_range_wpow, lrange|].
      rewrite !app_assoc, be_inv_r by (apply in_range_wpow, lrange). cbn [List.app].
      rewrite <- !wpow_add by apply lrange. replace (d + Z.of_nat (length l) + (k - d - Z.of_nat (length l)))%Z with k by lia. reflexivity. }
    assert (P : positive n ((winv (flat_map lift l) ++ wpow (lift D) (Z.of_nat (length l))) ++ wpow (lift D) (k - d - Z.of_nat (length l)))).
    { apply positive_app; [apply winv_liftl_D|]. exists (wpow (lift D) (k - d - Z.of_nat (length l))).
      split; [apply in_range_wpow, lrange|]. split; [|reflexivity]. unfold wpow.
      destruct (Z.leb_spec 0 (k - d - Z.of_nat (length l))); [|lia].
      apply Forall_concat'. apply Forall_forall. intros x Hx. apply repeat_spec in Hx. subst. apply lift_pos. }
    destruct P as [u [P1 [P2 P3]]]. exists u. split; [exact P1|]. split; [exact P2|].
    rewrite E, app_assoc. exact P3.
Qed.
End InfSup.
End Tab.
