(** PropsTL.v – properties of Temperley-Lieb diagrams: C27-C30, C32-C35. *)
From Verif Require Import Base ModelTL SpecTL GlueTheory ComposeTheory TLTheory TLAlg TLAlg2 TLBasis TLCells TLRel.
From Coq Require Import Relations Permutation Sorting.Sorted Factorial.

(** ** C27 *)
(** is_crossingless_matching never raises and decides crossinglessness. *)
Theorem C27_is_crossingless_matching s :
  (is_crossingless_matching s = Ok true /\ crossinglessZ s) \/ (is_crossingless_matching s = Ok false /\ ~ crossinglessZ s).
Proof. destruct (icm_spec s) as [[|] [E H]]; [left|right]; (split; [exact E|]); [now apply H|]. intros K. apply H in K. discriminate. Qed.
Example C27_yes : is_crossingless_matching [5; 2; 1; 4; 3; 0]%Z = Ok true. Proof. reflexivity. Qed.
Example C27_no_cross : is_crossingless_matching [2; 3; 0; 1]%Z = Ok false. Proof. reflexivity. Qed.
Example C27_no_range : is_crossingless_matching [-1; 7]%Z = Ok false. Proof. reflexivity. Qed.

(** ** C28 *)
Lemma comb_fact n : forall k, k <= n -> comb n k * (fact k * fact (n - k)) = fact n.
Proof.
  induction n as [|n IH]; intros [|k] H; try lia; try reflexivity.
  - cbn [comb]. rewrite Nat.sub_0_r. cbn [fact]. lia.
  - cbn [comb]. destruct (Nat.eq_dec k n) as [->|N].
    + rewrite (comb_lt n (S n)) by lia. pose proof (IH n ltac:(lia)) as A. rewrite Nat.sub_diag in *. cbn [fact] in *. nia.
    + pose proof (IH k ltac:(lia)) as A. pose proof (IH (S k) ltac:(lia)) as B. replace (S n - S k) with (S (n - S k)) by lia. replace (n - k) with (S (n - S k)) in A by lia.
      assert (E1 : fact (S (n - S k)) = S (n - S k) * fact (n - S k)) by reflexivity. assert (E2 : fact (S k) = S k * fact k) by reflexivity.
      assert (E3 : fact (S n) = S n * fact n) by reflexivity. rewrite E3. rewrite E2, E1 in *. set (u := fact k) in *. set (v := fact (n - S k)) in *. set (w := fact n) in *. set (d := n - S k) in *.
      assert (En : S n = S k + S d) by (unfold d; lia). rewrite En.
      transitivity ((comb n k * (u * (S d * v))) * S k + (comb n (S k) * (S k * u * v)) * S d); [ring|]. rewrite A, B. ring.
Qed.
(** generate_sequences(2m) yields each crossingless matching of 2m points
    exactly once; their number is the Catalan number (2m)! / (m! (m+1)!). *)
Theorem C28_generate_sequences m : exists l, generate_sequences (2 * Z.of_nat m) = Ok l /\ NoDup l /\
  (forall s, In s l <-> crossingless s /\ length s = 2 * m) /\ length l * (fact m * fact (m + 1)) = fact (2 * m).
Proof.
  exists (dyck (S m) m). rewrite generate_spec. destruct (Z.ltb_spec (2 * Z.of_nat m) 0); [lia|].
  replace (2 * Z.of_nat m)%Z with (Z.of_nat m * 2)%Z by lia. rewrite Z.mod_mul, Z.div_mul by lia. cbn [orb Z.eqb]. rewrite Nat2Z.id.
  split; [reflexivity|]. split; [apply dyck_NoDup; lia|]. split; [intros s; apply dyck_spec; lia|].
  pose proof (dyck_catalan m) as A. pose proof (comb_fact (2 * m) m ltac:(lia)) as B. replace (2 * m - m) with m in B by lia.
  replace (m + 1) with (S m) by lia. assert (E : fact (S m) = S m * fact m) by reflexivity. rewrite E, <- B, <- A. ring.
Qed.
(** there is no crossingless matching of an odd number of points, and asking
    for an odd or negative number raises ValueError *)
Theorem C28_generate_sequences_error n : (n < 0 \/ n mod 2 = 1)%Z -> generate_sequences n = Err ValueError.
Proof. intros H. rewrite generate_spec. destruct (Z.ltb_spec n 0); [reflexivity|]. destruct (Z.eqb_spec (n mod 2) 1); [reflexivity|]. exfalso. lia. Qed.
Theorem C28_no_odd_matching s : crossingless s -> exists m, length s = 2 * m.
Proof. apply crossingless_even. Qed.
Example C28_generate_example : generate_sequences 6 = Ok [[1; 0; 3; 2; 5; 4]; [1; 0; 5; 4; 3; 2]; [3; 2; 1; 0; 5; 4]; [5; 2; 1; 4; 3; 0]; [5; 4; 3; 2; 1; 0]].
Proof. vm_compute. reflexivity. Qed.

(** ** C29 *)
Lemma loops_reps upper lower mid l : mid <= length lower -> mid <= length upper -> loops upper lower mid l ->
  reps (pD upper lower) (pf upper lower) (pgs (length lower) mid) (map Up l).
Proof.
  intros HL HU [A [B C]]. set (bot := length lower - mid) in *.
  assert (Cl : forall k, (k < mid /\ forall i, i < bot + (length upper - mid) -> ~ joined upper lower mid (Up k) (outer bot mid i)) <-> k < mid /\ closed (pD upper lower) (pf upper lower) (pgs (length lower) mid) (Up k)).
  { intros k. split; intros [K1 K2]; (split; [exact K1|]).
    - split; [cbn; lia|]. intros y By Cn. apply (K2 (code bot mid y)); [apply (code_lt upper lower mid HL HU); exact By|]. apply joined_conn; try assumption. unfold bot. rewrite (outer_code upper lower mid HL HU); auto.
    - intros i Hi J. apply (proj2 K2 (outer bot mid i)); [apply outer_bd; auto|]. apply joined_conn in J; auto. }
  split; [|split].
  - intros x Hx. apply in_map_iff in Hx. destruct Hx as [k [<- Hk]]. now apply Cl, A.
  - clear - B HL HU. induction B as [|x l F B IH]; cbn [map]; constructor; auto. rewrite Forall_forall in *. intros y Hy. apply in_map_iff in Hy. destruct Hy as [k [<- Hk]].
    intros Cn. apply (F k Hk). apply joined_conn; assumption.
  - intros x Hx. assert (I : In x (ends (pgs (length lower) mid))).
    { destruct (in_dec point_dec x (ends (pgs (length lower) mid))) as [I|I]; [exact I|]. exfalso. apply (proj2 Hx x); [split; [apply Hx|exact I]|apply conn_refl]. }
    assert (K : exists k, k < mid /\ conn (pD upper lower) (pf upper lower) (pgs (length lower) mid) x (Up k)).
    { apply in_ends in I. destruct I as [y [I|I]]; rewrite in_pg in I; destruct I as [k [Hk [E1 E2]]].
      - exists k. split; [exact Hk|]. subst. apply conn_g. rewrite in_pg. eauto.
      - exists k. split; [exact Hk|]. subst. apply conn_refl. }
    destruct K as [k [Hk Ck]]. destruct (C k) as [k' [Hk' J]].
    + apply Cl. split; [exact Hk|]. destruct Hx as [Dx Hx]. split; [cbn; lia|]. intros y By Cy. apply (Hx y By). eapply conn_trans; eassumption.
    + exists (Up k'). split; [now apply in_map|]. apply joined_conn in J; auto. eapply conn_trans; eassumption.
Qed.
Lemma conn_dec_loops upper lower mid n r : crossingless upper -> crossingless lower -> mid <= length lower -> mid <= length upper ->
  glued (pD upper lower) (pf upper lower) (pgs (length lower) mid) r n -> exists l, loops upper lower mid l /\ length l = n.
Proof.
  intros CU CL HL HU G. destruct (gl_reps _ _ _ _ _ G) as [l [Ll [A [B C]]]]. set (bot := length lower - mid).
  assert (In_ends : forall x, In x l -> In x (ends (pgs (length lower) mid))).
  { intros x Hx. specialize (A x Hx). destruct (in_dec point_dec x (ends (pgs (length lower) mid))) as [I|I]; [exact I|]. exfalso. apply (proj2 A x); [split; [apply A|exact I]|apply conn_refl]. }
  assert (Id : forall x, In x (ends (pgs (length lower) mid)) -> idx lower x < mid /\ conn (pD upper lower) (pf upper lower) (pgs (length lower) mid) x (Up (idx lower x))).
  { intros x I. split; [eapply idx_lt; eauto|eapply up_conn; eauto]. }
  pose proof (pD_matching upper lower (crossingless_matched _ CU) (crossingless_matched _ CL)) as M. pose proof (pgood upper lower mid HL HU) as Gd.
  exists (map (idx lower) l). split; [|now rewrite map_length]. split; [|split].
  - intros k Hk. apply in_map_iff in Hk. destruct Hk as [x [<- Hx]]. destruct (Id x (In_ends x Hx)) as [K1 K2]. split; [exact K1|]. intros i Hi J.
    apply joined_conn in J; auto. destruct (A x Hx) as [_ Q]. apply (Q (outer bot mid i)); [apply outer_bd; auto|]. eapply conn_trans; eassumption.
  - clear - A B In_ends Id HL HU. induction B as [|x l F B IH]; cbn [map]; constructor.
    + rewrite Forall_forall in *. intros k Hk. apply in_map_iff in Hk. destruct Hk as [y [<- Hy]]. intros J. apply joined_conn in J; auto. apply (F y Hy).
      destruct (Id x (In_ends x (or_introl eq_refl))) as [_ K]. destruct (Id y (In_ends y (or_intror Hy))) as [_ K'].
      eapply conn_trans; [exact K|]. eapply conn_trans; [exact J|]. now apply conn_sym.
    + apply IH; intros z Hz; [apply A|apply In_ends]; now right.
  - intros k [Hk Q]. destruct (C (Up k)) as [y [Hy Cy]].
    + split; [cbn; lia|]. intros z Bz Cz. apply (Q (code bot mid z)); [apply code_lt; auto|]. apply joined_conn; try assumption. unfold bot. rewrite (outer_code upper lower mid HL HU); auto.
    + exists (idx lower y). split; [now apply in_map|]. apply joined_conn; try assumption. eapply conn_trans; [exact Cy|]. apply Id. auto.
Qed.
(** compose terminates without raising on every pair of crossingless matchings
    and every number of middle points; the result is crossingless, joins two
    boundary points iff a path through the stacked diagram does, and the second
    component is the number of closed loops. *)
Theorem C29_compose upper lower mid : crossingless upper -> crossingless lower -> mid <= length lower -> mid <= length upper ->
  exists r n, compose upper lower mid = Ok (r, n) /\ crossingless r /\
    let bot := length lower - mid in let size := bot + (length upper - mid) in
    length r = size /\
    (forall i j, i < size -> j < size -> i <> j -> (nth i r 0 = j <-> joined upper lower mid (outer bot mid i) (outer bot mid j))) /\
    (exists l, loops upper lower mid l) /\ (forall l, loops upper lower mid l -> length l = n).
Proof.
  intros CU CL HL HU. destruct (compose_ok upper lower mid CU CL HL HU) as [r [n [E [Lr [Cr G]]]]]. exists r, n. split; [exact E|]. split; [exact Cr|]. cbv zeta.
  split; [exact Lr|]. split; [|split].
  - intros i j Hi Hj N. pose proof (outer_bd upper lower mid HL HU i Hi) as Bi. pose proof (outer_bd upper lower mid HL HU j Hj) as Bj. split.
    + intros K. apply joined_conn; auto. pose proof (gl_conn _ _ _ _ _ G _ Bi) as Q. rewrite (read_outer lower mid (length upper)) in Q by auto. now rewrite K in Q.
    + intros J. apply joined_conn in J; auto. destruct (gl_uniq _ _ _ _ _ G _ _ Bi Bj J) as [K|K]; [apply outer_inj in K; congruence|].
      rewrite (read_outer lower mid (length upper)) in K by auto. apply outer_inj in K. auto.
  - destruct (conn_dec_loops upper lower mid n _ CU CL HL HU G) as [l [H _]]. eauto.
  - intros l Hl. apply loops_reps in Hl; auto. destruct (gl_reps _ _ _ _ _ G) as [l' [<- R]]. rewrite <- (map_length Up l). eapply reps_length; eassumption.
Qed.
Theorem C29_compose_error upper lower mid : length lower < mid \/ length upper < mid -> compose upper lower mid = Err AssertionError.
Proof. intros H. unfold compose. destruct (Nat.leb_spec mid (length lower)), (Nat.leb_spec mid (length upper)); try reflexivity. exfalso. lia. Qed.
(** a loop in the middle, found by the stacked diagram and counted by the code *)
Example C29_compose_example : compose [1; 0; 3; 2] [1; 0; 3; 2] 2 = Ok ([1; 0; 3; 2], 1) /\ loops [1; 0; 3; 2] [1; 0; 3; 2] 2 [0].
Proof.
  split; [vm_compute; reflexivity|].
  assert (C : crossingless [1; 0; 3; 2]) by (apply is_cm_Ok; vm_compute; reflexivity).
  destruct (compose_ok _ _ 2 C C ltac:(cbn; lia) ltac:(cbn; lia)) as [r [n [E [_ [_ G]]]]]. vm_compute in E. injection E as <- <-.
  destruct (conn_dec_loops _ _ 2 _ _ C C ltac:(cbn; lia) ltac:(cbn; lia) G) as [l [[A [B D]] L]]. destruct l as [|k [|k' l]]; try discriminate.
  assert (J : joined [1; 0; 3; 2] [1; 0; 3; 2] 2 (Up 0) (Up 1)) by (apply rst_step; change (Up 1) with (Up (nth 0 [1; 0; 3; 2] 0)); apply arc_upper; cbn; lia).
  destruct (A k (or_introl eq_refl)) as [Hk Q]. cbn [length Nat.sub Nat.add] in *.
  assert (K0 : joined [1; 0; 3; 2] [1; 0; 3; 2] 2 (Up 0) (Up k)) by (destruct k as [|[|k]]; [apply rst_refl|exact J|lia]).
  split; [|split].
  - intros x [<-|[]]. split; [lia|]. intros i Hi H. apply (Q i Hi). eapply rst_trans; [apply rst_sym; exact K0|exact H].
  - repeat constructor.
  - intros x Hx. exists 0. split; [now left|]. destruct (D x Hx) as [y [[<-|[]] Hy]]. eapply rst_trans; [exact Hy|apply rst_sym; exact K0].
Qed.

(** ** Diagrams as the constructor accepts them *)
Definition diagram (d : diag) : Prop := crossingless (dseq d) /\ length (dseq d) = dtop d + dbot d.
Theorem C29_constructor top bot s : (tld top bot s = Ok (mkD top bot s) /\ diagram (mkD top bot s)) \/
  (tld top bot s = Err AssertionError /\ ~ (crossingless s /\ length s = top + bot)).
Proof.
  unfold tld. destruct (Nat.eqb_spec (top + bot) (length s)) as [E|E]; cbn [assert_ bind]; [|right; split; [reflexivity|intros [_ K]; lia]].
  destruct (is_cm_spec s) as [b [-> Hb]]. destruct b; cbn [assert_ bind]; [left|right]; (split; [reflexivity|]).
  - split; [now apply Hb|cbn; lia].
  - intros [K _]. apply Hb in K. discriminate.
Qed.
Lemma diagram_tld d : diagram d -> tld (dtop d) (dbot d) (dseq d) = Ok d.
Proof. intros [C L]. rewrite tld_ok by auto. now destruct d. Qed.
(** x * y for TLDiag: total on composable diagrams, and otherwise ValueError. *)
Theorem C29_mul x y : diagram x -> diagram y ->
  if dbot x =? dtop y then exists z n, tld_mul x y = Ok (z, n) /\ diagram z /\ dtop z = dtop x /\ dbot z = dbot y /\ compose (dseq x) (dseq y) (dbot x) = Ok (dseq z, n)
  else tld_mul x y = Err ValueError.
Proof.
  intros [Cx Lx] [Cy Ly]. destruct (Nat.eqb_spec (dbot x) (dtop y)) as [E|E].
  - destruct (compose_ok (dseq x) (dseq y) (dbot x) Cx Cy ltac:(lia) ltac:(lia)) as [r [n [Er [Lr [Cr _]]]]].
    exists (mkD (dtop x) (dbot y) r), n. unfold tld_mul. rewrite E, Nat.eqb_refl, <- E. cbn [negb]. rewrite Er. cbn [bind]. rewrite tld_ok by (auto; lia). cbn [bind].
    split; [reflexivity|]. split; [split; [exact Cr|cbn; lia]|]. auto.
  - unfold tld_mul. destruct (Nat.eqb_spec (dbot x) (dtop y)); [contradiction|]. reflexivity.
Qed.
Lemma tld_mul_ok x y r n : diagram x -> diagram y -> dbot x = dtop y -> compose (dseq x) (dseq y) (dbot x) = Ok (r, n) -> tld_mul x y = Ok (mkD (dtop x) (dbot y) r, n).
Proof.
  intros Dx Dy E H. pose proof (C29_mul x y Dx Dy) as K. rewrite E, Nat.eqb_refl, <- E in K. destruct K as [z [m [K1 [_ [K2 [K3 K4]]]]]].
  rewrite K1. destruct z as [a b c]. cbn in *. congruence.
Qed.

(** ** C30 *)
Theorem C30_associative x y z : diagram x -> diagram y -> diagram z -> dbot x = dtop y -> dbot y = dtop z ->
  exists xy n1 yz n2 w m1 m2, tld_mul x y = Ok (xy, n1) /\ tld_mul xy z = Ok (w, m1) /\ tld_mul y z = Ok (yz, n2) /\ tld_mul x yz = Ok (w, m2) /\
    n1 + m1 = n2 + m2.
Proof.
  intros Dx Dy Dz E1 E2. destruct Dx as [Cx Lx] eqn:?, Dy as [Cy Ly] eqn:?, Dz as [Cz Lz] eqn:?.
  destruct (compose_assoc (dseq x) (dseq y) (dseq z) (dbot x) (dbot y) Cx Cy Cz) as [ab [n1 [bc [n3 [abc [n2 [n4 [H1 [H2 [H3 [H4 H5]]]]]]]]]]]; try lia.
  exists (mkD (dtop x) (dbot y) ab), n1, (mkD (dtop y) (dbot z) bc), n3, (mkD (dtop x) (dbot z) abc), n2, n4.
  pose proof (tld_mul_ok x y ab n1 Dx Dy E1 H1) as K1. pose proof (tld_mul_ok y z bc n3 Dy Dz E2 H3) as K3.
  pose proof (C29_mul x y Dx Dy) as T1. rewrite E1, Nat.eqb_refl in T1. destruct T1 as [? [? [T1 [T1' _]]]]. rewrite K1 in T1. injection T1 as <- <-.
  pose proof (C29_mul y z Dy Dz) as T2. rewrite E2, Nat.eqb_refl in T2. destruct T2 as [? [? [T2 [T2' _]]]]. rewrite K3 in T2. injection T2 as <- <-.
  split; [exact K1|]. split; [apply (tld_mul_ok (mkD (dtop x) (dbot y) ab) z); auto|]. split; [exact K3|]. split; [apply (tld_mul_ok x (mkD (dtop y) (dbot z) bc)); auto|exact H5].
Qed.
Theorem C30_identity x : diagram x -> exists i j, tld_id (dtop x) = Ok i /\ tld_id (dbot x) = Ok j /\ tld_mul i x = Ok (x, 0) /\ tld_mul x j = Ok (x, 0).
Proof.
  intros Dx. destruct Dx as [Cx Lx] eqn:?. exists (mkD (dtop x) (dtop x) (id_seq (dtop x))), (mkD (dbot x) (dbot x) (id_seq (dbot x))). rewrite !tld_id_ok.
  assert (Di : forall n, diagram (mkD n n (id_seq n))) by (intros n; split; [apply crossingless_id|cbn [dseq dtop dbot]; rewrite id_seq_length; lia]).
  repeat split.
  - rewrite (tld_mul_ok _ x (dseq x) 0 (Di _) Dx eq_refl); [now destruct x|]. apply compose_id_l; [exact Cx|]. cbn. lia.
  - rewrite (tld_mul_ok x _ (dseq x) 0 Dx (Di _) eq_refl); [now destruct x|]. apply compose_id_r; [exact Cx|lia].
Qed.
Example C30_example : diagram (mkD 3 3 (e_seq 0 3)) /\ diagram (mkD 3 3 (e_seq 1 3)) /\
  tld_mul (mkD 3 3 (e_seq 0 3)) (mkD 3 3 (e_seq 1 3)) = Ok (mkD 3 3 [3; 2; 1; 0; 5; 4], 0).
Proof. split; [split; [apply crossingless_e; lia|reflexivity]|]. split; [split; [apply crossingless_e; lia|reflexivity]|]. vm_compute. reflexivity. Qed.

(** ** C32 *)
(** cell_basis(n, r) for 2r <= n: exactly the diagrams of type (n, n-2r) all of
    whose bottom points run through, in strictly increasing order. *)
Theorem C32_cell_basis n r : 2 * r <= n -> exists l, cell_basis n r = Ok l /\
  (forall d, In d l <-> diagram d /\ dtop d = n /\ dbot d = n - 2 * r /\ through_all (n - 2 * r) (dseq d)) /\
  StronglySorted lex_lt (map dseq l) /\ NoDup l /\ cell_dimension n r = Ok (Z.of_nat (length l)).
Proof.
  intros H. destruct (cell_basis_seqs n r) as [ss [E [I [S [N L]]]]]. exists (map (mkD n (n - 2 * r)) ss). split; [exact E|]. split; [|split; [|split]].
  - intros d. rewrite in_map_iff. split.
    + intros [s [<- Hs]]. apply I in Hs. destruct Hs as [_ [C [Ls T]]]. cbn. split; [split; [exact C|exact Ls]|auto].
    + intros [[C Ls] [E1 [E2 T]]]. exists (dseq d). split; [destruct d; cbn in *; congruence|]. apply I. split; [exact H|]. split; [exact C|]. split; [congruence|exact T].
  - rewrite map_map. cbn [dseq]. now rewrite map_id.
  - apply FinFun.Injective_map_NoDup; [|exact N]. intros a b [=]. auto.
  - rewrite cell_dimension_eq. destruct (Nat.leb_spec (2 * r) n); [|lia]. rewrite map_length, L by lia. reflexivity.
Qed.
Lemma filter_len {A} (f : A -> bool) l : length (filter f l) <= length l.
Proof. induction l as [|x l IH]; [apply le_n|]. cbn [filter]. destruct (f x); cbn [length]; lia. Qed.
Theorem C32_through_strands d : diagram d -> through_all (dbot d) (dseq d) <-> through_strands d = dbot d.
Proof.
  intros [C L]. unfold through_all, through_strands.
  assert (K : forall l, (forall i, In i l -> dbot d <= nth i (dseq d) 0) <-> length (filter (fun i => dbot d <=? nth i (dseq d) 0) l) = length l).
  { induction l as [|x l IH]; [cbn; split; [reflexivity|intros _ i []]|]. cbn [filter]. destruct (Nat.leb_spec (dbot d) (nth x (dseq d) 0)).
    - cbn [length]. split; [intros A; f_equal; apply IH; intros i Hi; apply A; now right|]. intros [= A] i [<-|Hi]; [exact H|]. now apply IH.
    - split; [intros A; specialize (A x (or_introl eq_refl)); lia|]. intros A. pose proof (filter_len (fun i => dbot d <=? nth i (dseq d) 0) l). cbn [length] in A. lia. }
  pose proof (K (seq 0 (dbot d))) as Q. rewrite seq_length in Q. rewrite <- Q. split; intros A i Hi; apply A; [apply in_seq in Hi; lia|apply in_seq; lia].
Qed.
(** the dimension as a closed formula: (n choose r) - (n choose r-1) *)
Theorem C32_cell_dimension_outside n r : n < 2 * r -> cell_basis n r = Ok [] /\ cell_dimension n r = Err AssertionError.
Proof.
  intros H. split; [unfold cell_basis; destruct n; rewrite ?(proj2 (Nat.ltb_lt _ _) H); reflexivity|].
  rewrite cell_dimension_eq. destruct (Nat.leb_spec (2 * r) n); [lia|reflexivity].
Qed.
Theorem C32_binomial n k : k <= n -> comb n k * (fact k * fact (n - k)) = fact n.
Proof. apply comb_fact. Qed.
Example C32_cell_basis_example : cell_basis 4 1 = Ok [mkD 4 2 [3; 2; 1; 0; 5; 4]; mkD 4 2 [5; 2; 1; 4; 3; 0]; mkD 4 2 [5; 4; 3; 2; 1; 0]].
Proof. vm_compute. reflexivity. Qed.
(** tl_basis and tl_tableaux_basis *)
Theorem C32_tl_basis top bot : if (top + bot) mod 2 =? 0 then exists l, tl_basis top bot = Ok l /\ NoDup l /\ forall d, In d l <-> diagram d /\ dtop d = top /\ dbot d = bot
  else tl_basis top bot = Err AssertionError.
Proof.
  unfold tl_basis. destruct (Nat.eqb_spec ((top + bot) mod 2) 0) as [E|E]; cbn [assert_ bind]; [|reflexivity].
  set (m := (top + bot) / 2). assert (Em : top + bot = 2 * m). { pose proof (Nat.div_mod (top + bot) 2 ltac:(lia)). unfold m. lia. }
  destruct (C28_generate_sequences m) as [l [G [N [I _]]]]. rewrite Em. replace (Z.of_nat (2 * m)) with (2 * Z.of_nat m)%Z by lia. rewrite G. cbn [bind].
  exists (map (mkD top bot) l). split; [|split].
  - clear G N. assert (K : forall s, In s l -> crossingless s /\ length s = 2 * m) by (intros; now apply I). clear I. induction l as [|s l IH]; [reflexivity|]. cbn [mapM map].
    destruct (K s (or_introl eq_refl)) as [C L]. rewrite tld_ok by (auto; lia). cbn [bind]. rewrite IH by (intros; apply K; now right). reflexivity.
  - apply FinFun.Injective_map_NoDup; [|exact N]. intros a b [=]. auto.
  - intros d. rewrite in_map_iff. split.
    + intros [s [<- Hs]]. apply I in Hs. destruct Hs as [C L]. cbn. split; [split; cbn; [exact C|lia]|auto].
    + intros [[C L] [E1 E2]]. exists (dseq d). split; [destruct d; cbn in *; congruence|]. apply I. split; [exact C|lia].
Qed.
Theorem C32_tableaux_is_cell_basis n r : 2 * r <= n -> exists l l', tl_tableaux_basis n (n - 2 * r) = Ok l /\ cell_basis n r = Ok l' /\ Permutation l l'.
Proof.
  intros H. destruct (C32_cell_basis n r H) as [l' [E' [I' [_ [N' _]]]]]. unfold tl_tableaux_basis.
  assert (P : n mod 2 = (n - 2 * r) mod 2). { replace n with (n - 2 * r + r * 2) at 1 by lia. apply Nat.mod_add. lia. }
  rewrite <- P, Nat.eqb_refl. destruct (Nat.leb_spec (n - 2 * r) n); [|lia]. cbn [andb assert_ bind].
  pose proof (C32_tl_basis n (n - 2 * r)) as B. destruct (Nat.eqb_spec ((n + (n - 2 * r)) mod 2) 0) as [_|Q].
  - destruct B as [b [-> [Nb Ib]]]. cbn [bind]. exists (filter (fun d => through_strands d =? n - 2 * r) b), l'. split; [reflexivity|]. split; [exact E'|].
    apply NoDup_Permutation; [now apply NoDup_filter|exact N'|]. intros d. rewrite filter_In, Nat.eqb_eq, Ib, I'. split.
    + intros [[D [T1 T2]] T3]. split; [exact D|]. split; [exact T1|]. split; [exact T2|]. rewrite <- T2. apply C32_through_strands; [exact D|congruence].
    + intros [D [T1 [T2 T3]]]. split; [split; [exact D|auto]|]. rewrite <- T2. apply C32_through_strands; [exact D|]. now rewrite T2.
  - exfalso. apply Q. replace (n + (n - 2 * r)) with ((n - r) * 2) by lia. apply Nat.mod_mul. lia.
Qed.

(** ** C33 *)
Lemma tld_tensor_ok x y : diagram x -> diagram y -> tld_tensor x y = Ok (mkD (dtop x + dtop y) (dbot x + dbot y) (ins (dseq x) (dseq y) (dbot x))) /\
  diagram (mkD (dtop x + dtop y) (dbot x + dbot y) (ins (dseq x) (dseq y) (dbot x))).
Proof.
  intros [Cx Lx] [Cy Ly]. assert (H : dbot x <= length (dseq x)) by lia. pose proof (crossingless_ins _ _ _ H Cx Cy) as C. pose proof (ins_length _ (dseq y) _ H) as L.
  unfold tld_tensor. rewrite insert_ins. destruct (Nat.leb_spec (dbot x) (length (dseq x))); [|lia]. cbn [bind]. rewrite tld_ok by (auto; lia). split; [reflexivity|].
  split; [exact C|]. cbn [dseq dtop dbot]. lia.
Qed.
(** x @ y is defined for all diagrams, has the sum type, and consists of x on
    the left and y on the right: left boundary points are joined as in x, right
    ones as in y. *)
Definition left_pt (x y : diag) (i : nat) : nat := if i <? dbot x then i else i + length (dseq y).
Definition right_pt (x : diag) (i : nat) : nat := dbot x + i.
Theorem C33_tensor x y : diagram x -> diagram y -> exists z, tld_tensor x y = Ok z /\ diagram z /\ dtop z = dtop x + dtop y /\ dbot z = dbot x + dbot y /\
  (forall i, i < length (dseq x) -> nth (left_pt x y i) (dseq z) 0 = left_pt x y (nth i (dseq x) 0)) /\
  (forall i, i < length (dseq y) -> nth (right_pt x i) (dseq z) 0 = right_pt x (nth i (dseq y) 0)).
Proof.
  intros Dx Dy. destruct (tld_tensor_ok x y Dx Dy) as [E D]. eexists. split; [exact E|]. split; [exact D|]. cbn [dtop dbot dseq].
  assert (H : dbot x <= length (dseq x)) by (destruct Dx; lia). repeat split.
  - intros i Hi. apply ins_eo; auto.
  - intros i Hi. unfold right_pt. rewrite (Nat.add_comm (dbot x) i), ins_ei by auto. lia.
Qed.
Theorem C33_tensor_associative x y z : diagram x -> diagram y -> diagram z ->
  exists xy yz w, tld_tensor x y = Ok xy /\ tld_tensor xy z = Ok w /\ tld_tensor y z = Ok yz /\ tld_tensor x yz = Ok w.
Proof.
  intros Dx Dy Dz. destruct (tld_tensor_ok x y Dx Dy) as [E1 D1], (tld_tensor_ok y z Dy Dz) as [E2 D2].
  destruct (tld_tensor_ok _ z D1 Dz) as [E3 _], (tld_tensor_ok x _ Dx D2) as [E4 _]. cbn [dtop dbot dseq] in *.
  assert (E : ins (ins (dseq x) (dseq y) (dbot x)) (dseq z) (dbot x + dbot y) = ins (dseq x) (ins (dseq y) (dseq z) (dbot y)) (dbot x)).
  { destruct Dx, Dy. apply ins_assoc; lia. }
  rewrite E in E3. rewrite !Nat.add_assoc in E4. eauto 10.
Qed.
(** (x @ y) * (z @ w) = (x * z) @ (y * w), and the bubbles add up. *)
Theorem C33_interchange x y z w : diagram x -> diagram y -> diagram z -> diagram w -> dbot x = dtop z -> dbot y = dtop w ->
  exists xy zw xz n yw m u, tld_tensor x y = Ok xy /\ tld_tensor z w = Ok zw /\ tld_mul x z = Ok (xz, n) /\ tld_mul y w = Ok (yw, m) /\
    tld_mul xy zw = Ok (u, n + m) /\ tld_tensor xz yw = Ok u.
Proof.
  intros Dx Dy Dz Dw Exz Eyw. destruct (tld_tensor_ok x y Dx Dy) as [E1 D1], (tld_tensor_ok z w Dz Dw) as [E2 D2].
  destruct Dx as [Cx Lx] eqn:?, Dy as [Cy Ly] eqn:?, Dz as [Cz Lz] eqn:?, Dw as [Cw Lw] eqn:?.
  destruct (compose_ins (dseq x) (dseq y) (dseq z) (dseq w) (dbot x) (dbot y) Cx Cy Cz Cw) as [xz [n [yw [m [H1 [H2 H3]]]]]]; try lia.
  replace (length (dseq z) - dbot x) with (dbot z) in H3 by lia.
  pose proof (tld_mul_ok x z xz n Dx Dz Exz H1) as K1. pose proof (tld_mul_ok y w yw m Dy Dw Eyw H2) as K2.
  pose proof (C29_mul x z Dx Dz) as T1. rewrite Exz, Nat.eqb_refl in T1. destruct T1 as [? [? [T1 [T1' _]]]]. rewrite K1 in T1. injection T1 as <- <-.
  pose proof (C29_mul y w Dy Dw) as T2. rewrite Eyw, Nat.eqb_refl in T2. destruct T2 as [? [? [T2 [T2' _]]]]. rewrite K2 in T2. injection T2 as <- <-.
  destruct (tld_tensor_ok _ _ T1' T2') as [E3 _]. cbn [dtop dbot dseq] in E3.
  do 7 eexists. split; [exact E1|]. split; [exact E2|]. split; [exact K1|]. split; [exact K2|]. split; [|exact E3].
  apply (tld_mul_ok _ _ _ _ D1 D2); cbn [dtop dbot dseq]; [lia|exact H3].
Qed.
Theorem C33_tensor_identity a b : exists i j, tld_id a = Ok i /\ tld_id b = Ok j /\ tld_tensor i j = tld_id (a + b).
Proof.
  exists (mkD a a (id_seq a)), (mkD b b (id_seq b)). rewrite !tld_id_ok. split; [reflexivity|]. split; [reflexivity|].
  assert (Di : forall n, diagram (mkD n n (id_seq n))) by (intros n; split; [apply crossingless_id|cbn [dseq dtop dbot]; rewrite id_seq_length; lia]).
  destruct (tld_tensor_ok _ _ (Di a) (Di b)) as [-> _]. cbn [dtop dbot dseq]. now rewrite ins_id.
Qed.

(** ** C34: TLExtDiag.__mul__ *)
Definition ediagram (d : ediag) : Prop := crossingless (eseq d) /\ length (eseq d) = etop d + ebot d.
Definition plain (d : ediag) : diag := mkD (etop d) (ebot d) (eseq d).
(** The intended property is false: the square diagrams e_0 and e_1 on three
    strands multiply in the other order than TLDiag does. *)
Theorem C34_ext_mul_refuted : exists x y z w, ediagram x /\ ediagram y /\ ebot x = etop y /\ tle_mul x y = Ok z /\ tld_mul (plain x) (plain y) = Ok (w, 0) /\ plain z <> w.
Proof.
  exists (mkE 3 3 (e_seq 0 3) 0), (mkE 3 3 (e_seq 1 3) 0). do 2 eexists.
  split; [split; [apply crossingless_e; lia|reflexivity]|]. split; [split; [apply crossingless_e; lia|reflexivity]|]. split; [reflexivity|].
  split; [vm_compute; reflexivity|]. split; [vm_compute; reflexivity|]. discriminate.
Qed.
(** For square diagrams (the algebra TL_n) the product is y on top of x: the
    opposite multiplication, with all bubbles counted. *)
Theorem C34_ext_mul_opposite_partial n x y : ediagram x -> ediagram y -> etop x = n -> ebot x = n -> etop y = n -> ebot y = n ->
  exists z w k, tle_mul x y = Ok z /\ tld_mul (plain y) (plain x) = Ok (w, k) /\ plain z = w /\ (ebubbles z = ebubbles x + ebubbles y + Z.of_nat k)%Z /\ ediagram z.
Proof.
  intros [Cx Lx] [Cy Ly] E1 E2 E3 E4. destruct (compose_ok (eseq y) (eseq x) n Cy Cx ltac:(lia) ltac:(lia)) as [r [k [E [Lr [Cr _]]]]].
  exists (mkE n n r (ebubbles x + ebubbles y + Z.of_nat k)), (mkD n n r), k. unfold tle_mul. rewrite E2, E3, Nat.eqb_refl. cbn [negb]. rewrite E. cbn [bind].
  assert (T : tle (etop x) (ebot y) r (ebubbles x + ebubbles y + Z.of_nat k) = Ok (mkE n n r (ebubbles x + ebubbles y + Z.of_nat k))).
  { unfold tle. rewrite E1, E4. destruct (Nat.eqb_spec (n + n) (length r)); [|lia]. cbn [assert_ bind]. rewrite is_cm_true by exact Cr. reflexivity. }
  split; [exact T|]. split; [|split; [reflexivity|split; [reflexivity|split; [exact Cr|cbn; lia]]]].
  rewrite (tld_mul_ok (plain y) (plain x) r k); cbn [plain dtop dbot dseq]; auto; try congruence; try (split; [assumption|cbn; lia]).
Qed.

(** ** C35: TLDiag.flip *)
Lemma tld_flip_ok x : diagram x -> tld_flip x = Ok (mkD (dbot x) (dtop x) (fl (dseq x))) /\ diagram (mkD (dbot x) (dtop x) (fl (dseq x))).
Proof.
  intros [C L]. unfold tld_flip. replace (map (fun i => dtop x + dbot x - 1 - i) (rev (dseq x))) with (fl (dseq x)) by (unfold fl; now rewrite L).
  pose proof (crossingless_fl _ C) as F. pose proof (fl_length (dseq x)) as LF. rewrite tld_ok by (auto; lia). split; [reflexivity|]. split; [exact F|cbn; lia].
Qed.
(** flip turns the diagram upside down (point i becomes the point vertically
    opposite), is an involution, reverses products keeping the bubbles, fixes
    the identities and commutes with juxtaposition. *)
Theorem C35_flip x : diagram x -> exists f, tld_flip x = Ok f /\ diagram f /\ dtop f = dbot x /\ dbot f = dtop x /\ tld_flip f = Ok x /\
  forall i, i < length (dseq x) -> nth (length (dseq x) - 1 - i) (dseq f) 0 = length (dseq x) - 1 - nth i (dseq x) 0.
Proof.
  intros Dx. destruct (tld_flip_ok x Dx) as [E D]. eexists. split; [exact E|]. split; [exact D|]. split; [reflexivity|]. split; [reflexivity|]. split.
  - destruct (tld_flip_ok _ D) as [E' _]. rewrite E'. cbn [dtop dbot dseq]. rewrite fl_fl by (apply crossingless_matched; apply Dx). now destruct x.
  - intros i Hi. cbn [dseq]. rewrite nth_fl by lia. do 2 f_equal. lia.
Qed.
Theorem C35_flip_product x y : diagram x -> diagram y -> dbot x = dtop y ->
  exists fx fy xy n fxy, tld_flip x = Ok fx /\ tld_flip y = Ok fy /\ tld_mul x y = Ok (xy, n) /\ tld_flip xy = Ok fxy /\ tld_mul fy fx = Ok (fxy, n).
Proof.
  intros Dx Dy E. destruct (tld_flip_ok x Dx) as [E1 D1], (tld_flip_ok y Dy) as [E2 D2]. destruct Dx as [Cx Lx] eqn:?, Dy as [Cy Ly] eqn:?.
  destruct (compose_fl (dseq x) (dseq y) (dbot x) Cx Cy ltac:(lia) ltac:(lia)) as [r [n [H1 H2]]].
  pose proof (tld_mul_ok x y r n Dx Dy E H1) as K1.
  pose proof (C29_mul x y Dx Dy) as T1. rewrite E, Nat.eqb_refl in T1. destruct T1 as [? [? [T1 [T1' _]]]]. rewrite K1 in T1. injection T1 as <- <-.
  destruct (tld_flip_ok _ T1') as [E3 _]. do 5 eexists. split; [exact E1|]. split; [exact E2|]. split; [exact K1|]. split; [exact E3|].
  apply (tld_mul_ok _ _ _ _ D2 D1); cbn [dtop dbot dseq]; [auto|]. rewrite <- E. exact H2.
Qed.
Theorem C35_flip_tensor x y : diagram x -> diagram y ->
  exists fx fy xy f, tld_flip x = Ok fx /\ tld_flip y = Ok fy /\ tld_tensor x y = Ok xy /\ tld_flip xy = Ok f /\ tld_tensor fx fy = Ok f.
Proof.
  intros Dx Dy. destruct (tld_flip_ok x Dx) as [E1 D1], (tld_flip_ok y Dy) as [E2 D2], (tld_tensor_ok x y Dx Dy) as [E3 D3].
  destruct (tld_flip_ok _ D3) as [E4 _], (tld_tensor_ok _ _ D1 D2) as [E5 _]. cbn [dtop dbot dseq] in *.
  do 4 eexists. split; [exact E1|]. split; [exact E2|]. split; [exact E3|]. split; [exact E4|]. rewrite E5.
  destruct Dx as [Cx Lx], Dy as [Cy Ly]. rewrite fl_ins by (auto using crossingless_matched; lia). do 3 f_equal. lia.
Qed.
Theorem C35_flip_identity n : exists i, tld_id n = Ok i /\ tld_flip i = Ok i.
Proof.
  exists (mkD n n (id_seq n)). split; [apply tld_id_ok|].
  assert (Di : diagram (mkD n n (id_seq n))) by (split; [apply crossingless_id|cbn [dseq dtop dbot]; rewrite id_seq_length; lia]).
  destruct (tld_flip_ok _ Di) as [-> _]. cbn [dtop dbot dseq]. now rewrite fl_id.
Qed.
(** a concrete case for the hypotheses of this file *)
Example TL_nontrivial : diagram (mkD 4 2 [3; 2; 1; 0; 5; 4]) /\ diagram (mkD 2 4 [1; 0; 5; 4; 3; 2]) /\
  tld_mul (mkD 4 2 [3; 2; 1; 0; 5; 4]) (mkD 2 4 [1; 0; 5; 4; 3; 2]) = Ok (mkD 4 4 [1; 0; 5; 4; 3; 2; 7; 6], 0).
Proof.
  split; [split; [apply is_cm_Ok; vm_compute; reflexivity|reflexivity]|]. split; [split; [apply is_cm_Ok; vm_compute; reflexivity|reflexivity]|]. vm_compute. reflexivity.
Qed.
