(** PropsPolyRep.v – C63: what JonesSummand accepts and what its methods return. *)
From Coq Require Import ZArith List Lia Bool.
From Verif Require Import Base ModelPerm ModelBraid ModelPoly ModelMatrix ModelTL ModelTLMor ModelRep ModelPolymat ModelPolyRep.
From Verif Require Import JonesTheory PropsTL SpecRep PropsRep.
Import ListNotations.
Local Open Scope nat_scope.

(** C63.  JonesSummand accepts exactly the arguments below ... *)
Theorem C63_constructor n r p : (1 <= n /\ 2 * r <= n /\ (0 <= p)%Z <-> exists S, jones_summand n r p = Ok S) /\
  (~ (1 <= n /\ 2 * r <= n /\ (0 <= p)%Z) -> jones_summand n r p = Err AssertionError) /\
  (forall S, jones_summand n r p = Ok S -> js_n S = n /\ js_r S = r /\ js_p S = p).
Proof.
  unfold jones_summand, assert_. destruct (Nat.leb_spec 1 n); destruct (Nat.leb_spec (2 * r) n); destruct (Z.leb_spec 0 p); cbn [bind]; (split; [split; [intros (? & ? & ?); try lia; eexists; reflexivity|intros [S' E]; try discriminate; lia]|split; [intros K; try reflexivity; exfalso; lia|intros S' E; try discriminate; injection E as <-; auto]]).
Qed.

(** ... but for r = 0, which it (and search.py) accepts for every n, dimension()
    raises ValueError (math.comb of -1), and with it everything that needs the
    identity matrix: the identity, the table of permutation braids, every
    evaluation. *)
Theorem C63_r_zero_refuted n p : 1 <= n -> (0 <= p)%Z -> exists S, jones_summand n 0 p = Ok S /\
  js_dimension S = Err ValueError /\ js_id S = Err ValueError /\
  (exists R, jones_rep n 0 p = Ok R /\ rep_dimension R = Ok 1%Z).
Proof.
  intros Hn Hp. exists (mkJS n 0 p). unfold jones_summand. rewrite (proj2 (Nat.leb_le 1 n) Hn), (proj2 (Z.leb_le 0 p) Hp). cbn [Nat.mul Nat.leb assert_ bind]. split; [reflexivity|]. split; [reflexivity|]. split; [reflexivity|].
  destruct (proj1 (proj1 (C58_constructor n 0 p)) ltac:(lia)) as [R ER]. exists R. split; [exact ER|]. destruct (jones_rep_ok _ _ _ _ ER) as (_ & _ & _ & ->). reflexivity.
Qed.

(** For every other r it is the dimension of the representation, that is the
    number of basis elements of the cell module and the size of the matrices of
    JonesCellRep. *)
Theorem C63_dimension n r p S : jones_summand n r p = Ok S -> 1 <= r ->
  exists R B d, jones_rep n r p = Ok R /\ cell_basis n r = Ok B /\ d = length B /\ 1 <= d /\
    js_dimension S = Ok (Z.of_nat d) /\ rep_dimension R = Ok (Z.of_nat d) /\
    exists gens invs, rep_artin_gens_invs R = Ok (gens, invs) /\ Forall (square d) gens /\ Forall (square d) invs.
Proof.
  intros ES Hr. pose proof (proj2 (proj1 (C63_constructor n r p)) (ex_intro _ S ES)) as (Hn & Hrn & Hp).
  destruct (proj2 (proj2 (C63_constructor n r p)) S ES) as (En & Er & Ep).
  destruct (proj1 (proj1 (C58_constructor n r p)) ltac:(lia)) as [R ER].
  destruct (C58_generators n r p R ER) as (d & gens & invs & K).
  destruct (C32_cell_basis n r Hrn) as (B & EB & _).
  pose proof (jones_dim n r B Hrn EB) as ED. destruct (jones_rep_ok _ _ _ _ ER) as (_ & _ & _ & ER').
  assert (EdB : rep_dimension R = Ok (Z.of_nat (length B))) by (rewrite ER'; exact ED).
  destruct K as (E1 & K).
  assert (Ed : d = length B) by (rewrite E1 in EdB; injection EdB as K'; lia).
  exists R, B, d. split; [exact ER|]. split; [exact EB|]. split; [exact Ed|].
  destruct K as (Hd & EG & L1 & L2 & SQ & _). apply Forall_app in SQ. destruct SQ as [S1 S2].
  split; [lia|]. split; [|split; [exact E1|exists gens, invs; auto]].
  unfold js_dimension. rewrite En, Er. unfold math_comb. destruct (Z.ltb_spec (Z.of_nat r) 0); [lia|]. destruct (Z.ltb_spec (Z.of_nat r - 1) 0); [lia|]. cbn [bind].
  rewrite Nat2Z.id. replace (Z.to_nat (Z.of_nat r - 1)) with (r - 1) by lia. unfold jones_dimension in ED. destruct (Nat.eqb_spec r 0); [lia|]. rewrite Ed. exact ED.
Qed.
Example ex_C63 : exists S, jones_summand 6 3 2 = Ok S /\ js_dimension S = Ok 5%Z.
Proof. exists (mkJS 6 3 2). split; vm_compute; reflexivity. Qed.
