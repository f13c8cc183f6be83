(** BurauKernel.v – a certified calculator for the rows of Burau images of positive
    words: dense coefficient lists modulo p with a common offset. *)
From Verif Require Import Base ModelPoly SpecPoly PolyTheory PropsPoly ModelMatrix SpecMatrix MatrixTheory NumTheory PropsPolymat3.
From Verif Require Import ModelPerm Germ GermNF GermAct GermBraid PermTheory WeakOrder PermWords SpecBraid BraidTheory ModelBraid ModelTL ModelTLMor ModelRep SpecRep RepTheory RepCanon PropsRep TableTheory NFApi SpecPerm PermGerm PermTable PropsGNF PropsGNF2 PolyRepTheory BurauThree PropsBurau BurauWords.
Local Open Scope nat_scope.
#[local] Existing Instance neqp_equiv.
#[local] Existing Instance pmeq_equiv.

(** ** the calculator *)
Definition rd (p c : Z) : Z := if (p =? 0)%Z then c else (c mod p)%Z.
Definition scons (c : Z) (l : list Z) : list Z := match l with [] => if (c =? 0)%Z then [] else [c] | _ => c :: l end.
Fixpoint kneg (p : Z) (l : list Z) : list Z := match l with [] => [] | c :: l' => scons (rd p (- c)) (kneg p l') end.
Fixpoint ksub (p : Z) (a x : list Z) : list Z :=
  match a, x with
  | [], _ => kneg p x
  | _, [] => a
  | c :: a', d :: x' => scons (rd p (c - d)) (ksub p a' x')
  end.
Definition kshift (l : list Z) : list Z := match l with [] => [] | _ => 0%Z :: l end.
Definition kstep (p : Z) (row : list (list Z)) (s : nat) : list (list Z) :=
  let x := nth s row [] in
  map (fun '(j, r) => if j =? s then kshift (kshift (kneg p x)) else if (j =? s + 1) || (j + 1 =? s) then ksub p r (kshift x) else r) (combine (seq 0 (length row)) row).
(** divide the row by v when it is divisible by v *)
Definition zhead (l : list Z) : bool := match l with [] => true | c :: _ => (c =? 0)%Z end.
Definition kdrop (st : Z * list (list Z)) : Z * list (list Z) :=
  let (o, row) := st in if forallb zhead row then ((o + 1)%Z, map (@tl Z) row) else st.
Definition kletter (p : Z) (st : Z * list (list Z)) (s : nat) : Z * list (list Z) :=
  let (o, row) := st in kdrop (kdrop (o, kstep p row s)).
Definition krow (p : Z) (n i : nat) (w : list nat) : Z * list (list Z) :=
  fold_left (kletter p) w (0%Z, map (fun j => if i =? j then [1%Z] else []) (seq 0 (n - 1))).
Fixpoint zs_eqb (a b : list Z) : bool := match a, b with [], [] => true | x :: a', y :: b' => (x =? y)%Z && zs_eqb a' b' | _, _ => false end.
Fixpoint rows_eqb (a b : list (list Z)) : bool := match a, b with [], [] => true | x :: a', y :: b' => zs_eqb x y && rows_eqb a' b' | _, _ => false end.
Definition same_image (p : Z) (n : nat) (u w : list nat) : bool :=
  forallb (fun i => let (o, a) := krow p n i u in let (o', b) := krow p n i w in (o =? o')%Z && rows_eqb a b) (seq 0 (n - 1)).

(** ** its meaning *)
Definition pc (l : list Z) (x : Z) : Z := if (x <? 0)%Z then 0%Z else nth (Z.to_nat x) l 0%Z.
Definition cg (p a b : Z) : Prop := (p | a - b)%Z.
Lemma cg_refl p a : cg p a a. Proof. exists 0%Z. lia. Qed.
Lemma cg_sym p a b : cg p a b -> cg p b a. Proof. intros [k K]. exists (- k)%Z. lia. Qed.
Lemma cg_trans p a b c : cg p a b -> cg p b c -> cg p a c. Proof. intros [k K] [l L]. exists (k + l)%Z. lia. Qed.
Lemma cg_opp p a b : cg p a b -> cg p (- a) (- b). Proof. intros [k K]. exists (- k)%Z. lia. Qed.
Lemma cg_sub p a b c d : cg p a b -> cg p c d -> cg p (a - c) (b - d). Proof. intros [k K] [l L]. exists (k - l)%Z. lia. Qed.
Lemma rd_cg p q c : (p | q)%Z -> cg p (rd q c) c.
Proof. intros [k K]. unfold rd, cg. destruct (Z.eqb_spec q 0) as [Q|N]; [exists 0%Z; lia|]. exists (- (c / q) * k)%Z. pose proof (Z.div_mod c q N). nia. Qed.
Lemma pc_nil x : pc [] x = 0%Z. Proof. unfold pc. destruct (x <? 0)%Z; [reflexivity|]. now destruct (Z.to_nat x). Qed.
Lemma pc_cons c l x : pc (c :: l) x = if (x =? 0)%Z then c else pc l (x - 1).
Proof.
  unfold pc. destruct (Z.eqb_spec x 0) as [->|N]; [reflexivity|]. destruct (Z.ltb_spec x 0), (Z.ltb_spec (x - 1) 0); try lia. replace (Z.to_nat x) with (S (Z.to_nat (x - 1))) by lia. reflexivity.
Qed.
Lemma pc_scons c l x : pc (scons c l) x = pc (c :: l) x.
Proof. destruct l; [|reflexivity]. cbn [scons]. destruct (Z.eqb_spec c 0) as [->|N]; [|reflexivity]. rewrite pc_cons, !pc_nil. now destruct (x =? 0)%Z. Qed.
Lemma pc_kneg p q l : (p | q)%Z -> forall x, cg p (pc (kneg q l) x) (- pc l x).
Proof.
  intros Hq.   induction l as [|c l IH]; intros x; cbn [kneg]; [rewrite pc_nil; apply cg_refl|]. rewrite pc_scons, !pc_cons. destruct (x =? 0)%Z; [now apply rd_cg|apply IH].
Qed.
Lemma pc_ksub p q a : (p | q)%Z -> forall x y, cg p (pc (ksub q a x) y) (pc a y - pc x y).
Proof.
  intros Hq.   induction a as [|c a IH]; intros x y; cbn [ksub]; [rewrite pc_nil; now apply pc_kneg|]. destruct x as [|d x]; [rewrite pc_nil, Z.sub_0_r; apply cg_refl|].
  rewrite pc_scons, !pc_cons. destruct (y =? 0)%Z; [now apply rd_cg|apply IH].
Qed.
Lemma pc_kshift l x : pc (kshift l) x = pc l (x - 1).
Proof. destruct l as [|c l]; [cbn [kshift]; now rewrite !pc_nil|]. unfold kshift. rewrite pc_cons. destruct (Z.eqb_spec x 0) as [->|N]; reflexivity. Qed.
Lemma zs_eqb_ok a : forall b, zs_eqb a b = true -> a = b.
Proof. induction a as [|x a IH]; intros [|y b] H; cbn [zs_eqb] in H; try discriminate; [reflexivity|]. apply andb_prop in H. destruct H as [H1 H2]. apply Z.eqb_eq in H1. subst. f_equal. now apply IH. Qed.
Lemma rows_eqb_ok a : forall b, rows_eqb a b = true -> a = b.
Proof. induction a as [|x a IH]; intros [|y b] H; cbn [rows_eqb] in H; try discriminate; [reflexivity|]. apply andb_prop in H. destruct H as [H1 H2]. apply zs_eqb_ok in H1. subst. f_equal. now apply IH. Qed.
Lemma kstep_length p row s : length (kstep p row s) = length row.
Proof. unfold kstep. rewrite map_length, combine_length, seq_length. lia. Qed.
Lemma kstep_nth p row s j : j < length row -> nth j (kstep p row s) [] = if j =? s then kshift (kshift (kneg p (nth s row []))) else if (j =? s + 1) || (j + 1 =? s) then ksub p (nth j row []) (kshift (nth s row [])) else nth j row [].
Proof.
  intros Hj. unfold kstep. set (f := fun '(j, r) => _). rewrite (nth_indep _ _ (f (0, []))) by (rewrite map_length, combine_length, seq_length; lia). rewrite (map_nth f). rewrite combine_nth by (rewrite seq_length; reflexivity). rewrite seq_nth by exact Hj. reflexivity.
Qed.

Section Meaning.
Variables (n : nat) (p q : Z) (R : rep) (gens invs : list (mat num)) (E : mat num).
Hypothesis (EJ : jones_rep n 1 p = Ok R) (EG : rep_artin_gens_invs R = Ok (gens, invs)) (EI : rep_id R = Ok E) (Hq : (p | q)%Z).
Local Notation cw := (cw gens invs E).
Definition holds (w : bword) (i : nat) (st : Z * list (list Z)) : Prop :=
  length (snd st) = n - 1 /\ forall j e, j < n - 1 -> cg p (cw w i j e) (pc (nth j (snd st) []) (e - fst st)).
Lemma holds_step w i o row s : i < n - 1 -> s + 1 < n -> holds w i (o, row) -> holds (w ++ [(s, true)]) i (o, kstep q row s).
Proof using EJ EG EI Hq.
  intros Hi Hs [L H]. cbn [fst snd] in *. split; [cbn [snd]; now rewrite kstep_length|]. intros j e Hj. cbn [fst snd]. rewrite kstep_nth by lia.
  eapply cg_trans; [exact (cw_step n p R gens invs E EJ EG EI w s true i j e Hs Hi Hj)|]. cbn [sgn]. destruct (j =? s) eqn:E1.
  - rewrite !pc_kshift. eapply cg_trans; [|apply cg_sym, pc_kneg; exact Hq]. apply cg_opp. replace (e - o - 1 - 1)%Z with (e - 2 * 1 - o)%Z by lia. apply H. lia.
  - destruct ((j =? s + 1) || (j + 1 =? s)).
    + eapply cg_trans; [|apply cg_sym, pc_ksub; exact Hq]. apply cg_sub; [now apply H|]. rewrite pc_kshift. replace (e - o - 1)%Z with (e - 1 - o)%Z by lia. apply H. lia.
    + rewrite Z.sub_0_r. now apply H.
Qed.
Lemma holds_drop w i st : holds w i st -> holds w i (kdrop st).
Proof using Type.
  destruct st as [o row]. intros [L H]. cbn [fst snd kdrop] in *. destruct (forallb zhead row) eqn:F; [|split; assumption]. split; [cbn [snd]; now rewrite map_length|]. intros j e Hj. cbn [fst snd]. change (@nil Z) with (@tl Z []). rewrite (map_nth (@tl Z)).
  eapply cg_trans; [now apply H|]. rewrite forallb_forall in F. assert (F' : zhead (nth j row []) = true) by (apply F, nth_In; lia). destruct (nth j row []) as [|c l]; [cbn [tl]; rewrite !pc_nil; apply cg_refl|]. cbn [zhead tl] in *. apply Z.eqb_eq in F'. subst c. rewrite pc_cons. replace (e - (o + 1))%Z with (e - o - 1)%Z by lia.
  destruct (Z.eqb_spec (e - o) 0) as [Q|Q]; [|apply cg_refl]. unfold pc. destruct (Z.ltb_spec (e - o - 1) 0); [apply cg_refl|lia].
Qed.
Lemma holds_fold i us : i < n - 1 -> Forall (fun s => s + 1 < n) us -> forall w st, holds w i st -> holds (w ++ pword us) i (fold_left (kletter q) us st).
Proof using EJ EG EI Hq.
  intros Hi F. induction F as [|s us Hs F IH]; intros w st H; cbn [pword map fold_left]; [now rewrite app_nil_r|]. change ((s, true) :: map (fun i => (i, true)) us) with ([(s, true)] ++ pword us). rewrite app_assoc. apply IH. destruct st as [o row]. unfold kletter. apply holds_drop, holds_drop. now apply holds_step.
Qed.
Lemma krow_ok i us : i < n - 1 -> Forall (fun s => s + 1 < n) us -> holds (pword us) i (krow q n i us).
Proof using EJ EG EI Hq.
  intros Hi F. unfold krow. apply (holds_fold i us Hi F []). split; [cbn [snd]; now rewrite map_length, seq_length|]. intros j e Hj. cbn [fst snd]. rewrite Z.sub_0_r. rewrite (cw_nil n p R gens invs E EJ EG EI i j e Hi Hj). rewrite nth_map_seq by exact Hj.
  destruct (Nat.eqb_spec i j); cbn [andb]; [|rewrite pc_nil; apply cg_refl]. rewrite pc_cons, pc_nil. apply cg_refl.
Qed.
(** a positive answer means equal images *)
Theorem same_image_ok us ws : Forall (fun s => s + 1 < n) us -> Forall (fun s => s + 1 < n) ws -> same_image q n us ws = true -> pmeq p (M gens invs E (pword us)) (M gens invs E (pword ws)).
Proof using EJ EG EI Hq.
  intros Fu Fw H. destruct (Mfacts n 1 p R (n - 1) gens invs E EJ (burau_dim n p R EJ) EG EI) as (_ & _ & _ & _ & _ & SM & _). destruct (SM (pword us)) as (_ & R1 & C1). destruct (SM (pword ws)) as (_ & R2 & C2).
  apply (meq_ent (NI 0) (neqp p)); [apply SM|apply SM|]. split; [congruence|]. split; [congruence|]. intros i j Hi Hj. rewrite R1 in Hi. rewrite C1 in Hj. apply neqp_congr. intros e. change (cg p (cw (pword us) i j e) (cw (pword ws) i j e)).
  unfold same_image in H. rewrite forallb_forall in H. specialize (H i ltac:(apply in_seq; lia)). destruct (krow_ok i us Hi Fu) as [_ HU], (krow_ok i ws Hi Fw) as [_ HW]. destruct (krow q n i us) as [o a], (krow q n i ws) as [o' b]. cbn [fst snd] in *.
  apply andb_prop in H. destruct H as [H1 H2]. apply Z.eqb_eq in H1. apply rows_eqb_ok in H2. subst o' b. eapply cg_trans; [now apply HU|]. apply cg_sym. now apply HW.
Qed.
End Meaning.
