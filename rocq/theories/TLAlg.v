(** TLAlg.v – the algebra of diagram composition: it is determined by gluing,
    associative, unital, compatible with juxtaposition and with the flip. *)
From Verif Require Import Base ModelTL SpecTL GlueTheory GlueWalk ComposeTheory TLTheory.
From Coq Require Import Relations Permutation.
Local Arguments Nat.ltb : simpl never.
Local Arguments Nat.sub : simpl never.

Lemma read_outer lower mid U r i : mid <= length lower -> mid <= U -> i < length lower - mid + (U - mid) ->
  read lower mid r (outer (length lower - mid) mid i) = outer (length lower - mid) mid (nth i r 0).
Proof. intros H1 H2 Hi. unfold read. f_equal. f_equal. unfold outer. destruct (Nat.ltb_spec i (length lower - mid)); cbn; lia. Qed.
Lemma outer_inj bot mid i j : outer bot mid i = outer bot mid j -> i = j.
Proof. unfold outer. destruct (Nat.ltb_spec i bot), (Nat.ltb_spec j bot); intros [=]; lia. Qed.

(** compose computes every gluing *)
Lemma compose_glued upper lower mid r n : crossingless upper -> crossingless lower -> mid <= length lower -> mid <= length upper ->
  length r = length lower - mid + (length upper - mid) ->
  glued (pD upper lower) (pf upper lower) (pgs (length lower) mid) (read lower mid r) n -> compose upper lower mid = Ok (r, n).
Proof.
  intros CU CL HL HU Lr G. destruct (compose_ok upper lower mid CU CL HL HU) as [r' [n' [E [Lr' [_ G']]]]]. rewrite E.
  destruct (glued_unique _ _ _ _ _ _ _ G G') as [<- Er]. f_equal. f_equal.
  apply (nth_ext_len _ _ (length r) 0); auto; [congruence|]. intros i Hi. rewrite Lr in Hi.
  specialize (Er _ (outer_bd upper lower mid HL HU i Hi)). rewrite !(read_outer lower mid (length upper)) in Er by auto. apply outer_inj in Er. auto.
Qed.

(** ** Associativity *)
Inductive p3 := PA (i : nat) | PB (i : nat) | PC (i : nat).
Definition p3_dec (x y : p3) : {x = y} + {x <> y}.
Proof. decide equality; apply Nat.eq_dec. Defined.
Section Assoc.
Context (a b c : list nat) (m1 m2 : nat) (Ca : crossingless a) (Cb : crossingless b) (Cc : crossingless c).
Context (Ha : m1 <= length a) (Hb : length b = m2 + m1) (Hc : m2 <= length c).
Let Ma : matched a := crossingless_matched _ Ca.
Let Mb : matched b := crossingless_matched _ Cb.
Let Mc : matched c := crossingless_matched _ Cc.
Definition D3 (x : p3) : Prop := match x with PA i => i < length a | PB i => i < length b | PC i => i < length c end.
Definition f3 (x : p3) : p3 := match x with PA i => PA (nth i a 0) | PB i => PB (nth i b 0) | PC i => PC (nth i c 0) end.
Definition gab : list (p3 * p3) := map (fun k => (PB (length b - 1 - k), PA k)) (seq 0 m1).
Definition gbc : list (p3 * p3) := map (fun k => (PC (length c - 1 - k), PB k)) (seq 0 m2).
Lemma D3_matching : matching D3 f3.
Proof. intros [i|i|i] H; cbn in *; [destruct (Ma i H) as [A [B C]]|destruct (Mb i H) as [A [B C]]|destruct (Mc i H) as [A [B C]]]; repeat split; congruence. Qed.
Lemma in_gab x y : In (x, y) gab <-> exists k, k < m1 /\ x = PB (length b - 1 - k) /\ y = PA k.
Proof. unfold gab. rewrite in_map_iff. split; [intros [k [E H]]; apply in_seq in H; injection E as <- <-; exists k; repeat split; lia|intros [k [H [-> ->]]]; exists k; split; [reflexivity|apply in_seq; lia]]. Qed.
Lemma in_gbc x y : In (x, y) gbc <-> exists k, k < m2 /\ x = PC (length c - 1 - k) /\ y = PB k.
Proof. unfold gbc. rewrite in_map_iff. split; [intros [k [E H]]; apply in_seq in H; injection E as <- <-; exists k; repeat split; lia|intros [k [H [-> ->]]]; exists k; split; [reflexivity|apply in_seq; lia]]. Qed.
Lemma ends_gab x : In x (ends gab) <-> match x with PA i => i < m1 | PB i => m2 <= i < length b | PC i => False end.
Proof.
  rewrite in_ends. split.
  - intros [y [H|H]]; apply in_gab in H; destruct H as [k [H [-> E]]]; subst; lia.
  - destruct x as [i|i|i]; intros H; [| |destruct H].
    + exists (PB (length b - 1 - i)). right. apply in_gab. exists i. repeat split; lia.
    + exists (PA (length b - 1 - i)). left. apply in_gab. exists (length b - 1 - i). repeat split; try lia. f_equal. lia.
Qed.
Lemma ends_gbc x : In x (ends gbc) <-> match x with PA i => False | PB i => i < m2 | PC i => length c - m2 <= i < length c end.
Proof.
  rewrite in_ends. split.
  - intros [y [H|H]]; apply in_gbc in H; destruct H as [k [H [-> E]]]; subst; lia.
  - destruct x as [i|i|i]; intros H; [destruct H| |].
    + exists (PC (length c - 1 - i)). right. apply in_gbc. exists i. repeat split; lia.
    + exists (PB (length c - 1 - i)). left. apply in_gbc. exists (length c - 1 - i). repeat split; try lia. f_equal. lia.
Qed.
Lemma bd_gab x : bd D3 gab x <-> match x with PA i => m1 <= i < length a | PB i => i < m2 | PC i => i < length c end.
Proof. unfold bd. rewrite ends_gab. destruct x; cbn; lia. Qed.
Lemma bd_gbc x : bd D3 gbc x <-> match x with PA i => i < length a | PB i => m2 <= i < length b | PC i => i < length c - m2 end.
Proof. unfold bd. rewrite ends_gbc. destruct x; cbn; lia. Qed.

(** *** a over b first *)
Section Left.
Context (ab abc : list nat) (n1 n2 : nat).
Context (Lab : length ab = m2 + (length a - m1)) (Labc : length abc = length c - m2 + (length ab - m2)) (Cab : crossingless ab).
Context (G1 : glued (pD a b) (pf a b) (pgs (length b) m1) (read b m1 ab) n1).
Context (G2 : glued (pD ab c) (pf ab c) (pgs (length c) m2) (read c m2 abc) n2).
Let phi (x : point) : p3 := match x with Lo i => PB i | Up i => PA i end.
Let psi (x : point) : p3 := match x with Lo i => PC i | Up i => if i <? m2 then PB i else PA (i - m2 + m1) end.
Definition D12 (x : p3) : Prop := match x with PA i => i < length a | PB i => i < length b | PC i => False end.
Definition r1 (x : p3) : p3 := match x with PA i => phi (read b m1 ab (Up i)) | PB i => phi (read b m1 ab (Lo i)) | PC i => PC (nth i c 0) end.
Definition R1 (x : p3) : p3 := match x with PA i => psi (read c m2 abc (Up (i - m1 + m2))) | PB i => PB i | PC i => psi (read c m2 abc (Lo i)) end.
Lemma gab_map : map (fun p => (phi (fst p), phi (snd p))) (pgs (length b) m1) = gab.
Proof. unfold pgs, gab. now rewrite map_map. Qed.
Lemma gbc_map : map (fun p => (psi (fst p), psi (snd p))) (pgs (length c) m2) = gbc.
Proof.
  unfold pgs, gbc. rewrite map_map. apply map_ext_in. intros k Hk. apply in_seq in Hk. cbn. destruct (Nat.ltb_spec k m2); [reflexivity|lia].
Qed.
Lemma left1 : glued D3 f3 gab r1 n1 /\ good D3 gab.
Proof.
  assert (HD : forall y, D12 y <-> exists x, pD a b x /\ y = phi x).
  { intros [i|i|i]; cbn; (split; [intros H|intros [[j|j] [K E]]; cbn in *; try discriminate; injection E as ->; exact K]).
    - now exists (Up i). - now exists (Lo i). - destruct H. }
  assert (inj : forall x y, pD a b x -> pD a b y -> phi x = phi y -> x = y) by (intros [i|i] [j|j] _ _ E; cbn in E; congruence).
  assert (Hf : forall x, pD a b x -> f3 (phi x) = phi (pf a b x)) by (intros [i|i] _; reflexivity).
  pose proof (pD_matching a b Ma Mb) as M. pose proof (pgood a b m1 ltac:(lia) ltac:(lia)) as G.
  assert (H1 : glued D12 f3 gab r1 n1).
  { rewrite <- gab_map. apply (glued_relabel phi (pD a b) (pf a b) _ (read b m1 ab) n1 D12 f3 r1); auto. intros [i|i] _; reflexivity. }
  assert (GD : good D12 gab) by (rewrite <- gab_map; apply (good_relabel phi (pD a b) (pgs (length b) m1) D12 inj HD G)).
  set (DC := fun x => match x with PC i => i < length c | _ => False end).
  assert (MC : matching DC f3) by (intros [i|i|i] H; cbn in *; try tauto; destruct (Mc i H) as [A [B C]]; repeat split; congruence).
  assert (M12 : matching D12 f3) by (intros [i|i|i] H; cbn in *; try tauto; [destruct (Ma i H) as [A [B C]]|destruct (Mb i H) as [A [B C]]]; repeat split; congruence).
  assert (H2 : glued DC f3 [] r1 0).
  { apply (glued_ext DC f3 [] DC f3 [] f3 r1 0); auto; try tauto; [|now apply glued_nil]. intros x Hx. rewrite bd_nil in Hx. destruct x; cbn in *; tauto. }
  split.
  - pose proof (glued_union D12 DC f3 gab [] r1 n1 0 ltac:(intros [i|i|i]; cbn; tauto) M12 MC GD ltac:(split; [constructor|intros ? []]) H1 H2) as H.
    rewrite Nat.add_0_r, app_nil_r in H. eapply glued_ext; [| | | | |exact H]; auto. intros [i|i|i]; cbn; tauto.
  - destruct GD as [A B]. split; [exact A|]. intros x Hx. apply B in Hx. destruct x; cbn in *; tauto.
Qed.
Lemma left2 : glued (bd D3 gab) r1 gbc R1 n2 /\ good (bd D3 gab) gbc.
Proof.
  assert (HD : forall y, bd D3 gab y <-> exists x, pD ab c x /\ y = psi x).
  { intros y. rewrite bd_gab. destruct y as [i|i|i]; (split; [intros H|intros [[j|j] [K E]]; cbn in *; try discriminate]).
    - exists (Up (i - m1 + m2)). cbn. destruct (Nat.ltb_spec (i - m1 + m2) m2); [lia|]. split; [lia|]. f_equal. lia.
    - destruct (Nat.ltb_spec j m2); [discriminate|]. injection E as ->. lia.
    - exists (Up i). cbn. destruct (Nat.ltb_spec i m2); [|lia]. split; [lia|]. reflexivity.
    - destruct (Nat.ltb_spec j m2); [|discriminate]. injection E as ->. lia.
    - exists (Lo i). auto.
    - injection E as ->. exact K.
    - destruct (j <? m2); discriminate. }
  assert (inj : forall x y, pD ab c x -> pD ab c y -> psi x = psi y -> x = y).
  { intros [i|i] [j|j] _ _; cbn; destruct (Nat.ltb_spec i m2), (Nat.ltb_spec j m2); intros [=]; subst; try reflexivity; f_equal; lia. }
  assert (E1 : forall i, i < length ab -> psi (Up i) = phi (outer m2 m1 i)) by (intros i Hi; unfold outer; cbn; now destruct (Nat.ltb_spec i m2)).
  assert (LL : length b - m1 = m2) by lia.
  assert (Hf : forall x, pD ab c x -> r1 (psi x) = psi (pf ab c x)).
  { intros [i|i] Hx; cbn [pD] in Hx; [reflexivity|]. cbn [pf]. assert (Hn : nth i ab 0 < length ab) by now apply Cab.
    rewrite !E1 by auto. transitivity (phi (read b m1 ab (outer m2 m1 i))).
    - unfold outer. destruct (i <? m2); reflexivity.
    - f_equal. rewrite <- LL. apply (read_outer b m1 (length a)); lia. }
  pose proof (pD_matching ab c (crossingless_matched _ Cab) Mc) as M. pose proof (pgood ab c m2 ltac:(lia) ltac:(lia)) as G.
  rewrite <- gbc_map. split.
  - apply (glued_relabel psi (pD ab c) (pf ab c) _ (read c m2 abc) n2 (bd D3 gab) r1 R1); auto.
    intros x Hx. apply pbd in Hx; try lia. destruct x as [i|i]; cbn [psi R1]; [reflexivity|].
    destruct (Nat.ltb_spec i m2); [lia|]. cbn [R1]. f_equal. f_equal. f_equal. lia.
  - apply (good_relabel psi (pD ab c) (pgs (length c) m2) (bd D3 gab) inj HD G).
Qed.
Lemma left_all : glued D3 f3 (gab ++ gbc) R1 (n1 + n2).
Proof. destruct left1 as [A B], left2 as [C D]. eapply glued_app; eauto using D3_matching. Qed.
End Left.

(** *** b over c first *)
Section Right.
Context (bc abc : list nat) (n1 n2 : nat).
Context (Lbc : length bc = length c - m2 + m1) (Labc : length abc = length bc - m1 + (length a - m1)) (Cbc : crossingless bc).
Context (G1 : glued (pD b c) (pf b c) (pgs (length c) m2) (read c m2 bc) n1).
Context (G2 : glued (pD a bc) (pf a bc) (pgs (length bc) m1) (read bc m1 abc) n2).
Let phi (x : point) : p3 := match x with Lo i => PC i | Up i => PB i end.
Let psi (x : point) : p3 := match x with Up i => PA i | Lo i => if i <? length c - m2 then PC i else PB (i - (length c - m2) + m2) end.
Definition D23 (x : p3) : Prop := match x with PA i => False | PB i => i < length b | PC i => i < length c end.
Definition r2 (x : p3) : p3 := match x with PC i => phi (read c m2 bc (Lo i)) | PB i => phi (read c m2 bc (Up i)) | PA i => PA (nth i a 0) end.
Definition R2 (x : p3) : p3 := match x with PA i => psi (read bc m1 abc (Up i)) | PB i => PB i | PC i => psi (read bc m1 abc (Lo i)) end.
Lemma gbc_map' : map (fun p => (phi (fst p), phi (snd p))) (pgs (length c) m2) = gbc.
Proof. unfold pgs, gbc. now rewrite map_map. Qed.
Lemma gab_map' : map (fun p => (psi (fst p), psi (snd p))) (pgs (length bc) m1) = gab.
Proof.
  unfold pgs, gab. rewrite map_map. apply map_ext_in. intros k Hk. apply in_seq in Hk. cbn.
  destruct (Nat.ltb_spec (length bc - 1 - k) (length c - m2)); [lia|]. f_equal. f_equal. lia.
Qed.
Lemma right1 : glued D3 f3 gbc r2 n1 /\ good D3 gbc.
Proof.
  assert (HD : forall y, D23 y <-> exists x, pD b c x /\ y = phi x).
  { intros [i|i|i]; cbn; (split; [intros H|intros [[j|j] [K E]]; cbn in *; try discriminate; injection E as ->; exact K]).
    - destruct H. - now exists (Up i). - now exists (Lo i). }
  assert (inj : forall x y, pD b c x -> pD b c y -> phi x = phi y -> x = y) by (intros [i|i] [j|j] _ _ E; cbn in E; congruence).
  assert (Hf : forall x, pD b c x -> f3 (phi x) = phi (pf b c x)) by (intros [i|i] _; reflexivity).
  pose proof (pD_matching b c Mb Mc) as M. pose proof (pgood b c m2 ltac:(lia) ltac:(lia)) as G.
  assert (H1 : glued D23 f3 gbc r2 n1).
  { rewrite <- gbc_map'. apply (glued_relabel phi (pD b c) (pf b c) _ (read c m2 bc) n1 D23 f3 r2); auto. intros [i|i] _; reflexivity. }
  assert (GD : good D23 gbc) by (rewrite <- gbc_map'; apply (good_relabel phi (pD b c) (pgs (length c) m2) D23 inj HD G)).
  set (DC := fun x => match x with PA i => i < length a | _ => False end).
  assert (MC : matching DC f3) by (intros [i|i|i] H; cbn in *; try tauto; destruct (Ma i H) as [A [B C]]; repeat split; congruence).
  assert (M12 : matching D23 f3) by (intros [i|i|i] H; cbn in *; try tauto; [destruct (Mb i H) as [A [B C]]|destruct (Mc i H) as [A [B C]]]; repeat split; congruence).
  assert (H2 : glued DC f3 [] r2 0).
  { apply (glued_ext DC f3 [] DC f3 [] f3 r2 0); auto; try tauto; [|now apply glued_nil]. intros x Hx. rewrite bd_nil in Hx. destruct x; cbn in *; tauto. }
  split.
  - pose proof (glued_union D23 DC f3 gbc [] r2 n1 0 ltac:(intros [i|i|i]; cbn; tauto) M12 MC GD ltac:(split; [constructor|intros ? []]) H1 H2) as H.
    rewrite Nat.add_0_r, app_nil_r in H. eapply glued_ext; [| | | | |exact H]; auto. intros [i|i|i]; cbn; tauto.
  - destruct GD as [A B]. split; [exact A|]. intros x Hx. apply B in Hx. destruct x; cbn in *; tauto.
Qed.
Lemma right2 : glued (bd D3 gbc) r2 gab R2 n2 /\ good (bd D3 gbc) gab.
Proof.
  assert (HD : forall y, bd D3 gbc y <-> exists x, pD a bc x /\ y = psi x).
  { intros y. rewrite bd_gbc. destruct y as [i|i|i]; (split; [intros H|intros [[j|j] [K E]]; cbn in *; try discriminate]).
    - exists (Up i). auto.
    - destruct (j <? length c - m2); discriminate.
    - injection E as ->. exact K.
    - exists (Lo (i - m2 + (length c - m2))). cbn. destruct (Nat.ltb_spec (i - m2 + (length c - m2)) (length c - m2)); [lia|]. split; [lia|]. f_equal. lia.
    - destruct (Nat.ltb_spec j (length c - m2)); [discriminate|]. injection E as ->. lia.
    - exists (Lo i). cbn. destruct (Nat.ltb_spec i (length c - m2)); [|lia]. split; [lia|]. reflexivity.
    - destruct (Nat.ltb_spec j (length c - m2)); [|discriminate]. injection E as ->. lia. }
  assert (inj : forall x y, pD a bc x -> pD a bc y -> psi x = psi y -> x = y).
  { intros [i|i] [j|j] _ _; cbn; destruct (Nat.ltb_spec i (length c - m2)), (Nat.ltb_spec j (length c - m2)); intros [=]; subst; try reflexivity; f_equal; lia. }
  assert (E1 : forall i, i < length bc -> psi (Lo i) = phi (outer (length c - m2) m2 i)) by (intros i Hi; unfold outer; cbn; now destruct (Nat.ltb_spec i (length c - m2))).
  assert (Hf : forall x, pD a bc x -> r2 (psi x) = psi (pf a bc x)).
  { intros [i|i] Hx; cbn [pD] in Hx; [|reflexivity]. cbn [pf]. assert (Hn : nth i bc 0 < length bc) by now apply Cbc.
    rewrite !E1 by auto. transitivity (phi (read c m2 bc (outer (length c - m2) m2 i))).
    - unfold outer. destruct (i <? length c - m2); reflexivity.
    - f_equal. apply (read_outer c m2 (length b)); lia. }
  pose proof (pD_matching a bc Ma (crossingless_matched _ Cbc)) as M. pose proof (pgood a bc m1 ltac:(lia) ltac:(lia)) as G.
  rewrite <- gab_map'. split.
  - apply (glued_relabel psi (pD a bc) (pf a bc) _ (read bc m1 abc) n2 (bd D3 gbc) r2 R2); auto.
    intros x Hx. apply pbd in Hx; try lia. destruct x as [i|i]; cbn [psi R2]; [|reflexivity].
    destruct (Nat.ltb_spec i (length c - m2)); [|lia]. reflexivity.
  - apply (good_relabel psi (pD a bc) (pgs (length bc) m1) (bd D3 gbc) inj HD G).
Qed.
Lemma right_all : glued D3 f3 (gbc ++ gab) R2 (n1 + n2).
Proof. destruct right1 as [A B], right2 as [C D]. eapply glued_app; eauto using D3_matching. Qed.
End Right.

Theorem compose_assoc : exists ab n1 bc n3 abc n2 n4,
  compose a b m1 = Ok (ab, n1) /\ compose ab c m2 = Ok (abc, n2) /\
  compose b c m2 = Ok (bc, n3) /\ compose a bc m1 = Ok (abc, n4) /\ n1 + n2 = n3 + n4.
Proof.
  destruct (compose_ok a b m1 Ca Cb ltac:(lia) Ha) as [ab [n1 [E1 [L1 [C1 G1]]]]].
  destruct (compose_ok b c m2 Cb Cc Hc ltac:(lia)) as [bc [n3 [E3 [L3 [C3 G3]]]]].
  destruct (compose_ok ab c m2 C1 Cc Hc ltac:(lia)) as [abc [n2 [E2 [L2 [C2 G2]]]]].
  destruct (compose_ok a bc m1 Ca C3 ltac:(lia) Ha) as [abc' [n4 [E4 [L4 [C4 G4]]]]].
  exists ab, n1, bc, n3, abc, n2, n4. repeat (split; [assumption|]).
  pose proof (left_all ab abc n1 n2 ltac:(lia) ltac:(lia) C1 G1 G2) as A.
  pose proof (right_all bc abc' n3 n4 ltac:(lia) ltac:(lia) C3 G3 G4) as B.
  assert (B' : glued D3 f3 (gab ++ gbc) (R2 bc abc') (n3 + n4)).
  { eapply glued_ext; [| | | | |exact B]; auto; try tauto; intros x y; rewrite !in_app_iff; tauto. }
  destruct (glued_unique _ _ _ _ _ _ _ A B') as [En Er]. split; [|exact En].
  rewrite E4. f_equal. f_equal.
  assert (bdx : forall i, i < length abc -> bd D3 (gab ++ gbc) (if i <? length c - m2 then PC i else PA (i - (length c - m2) + m1))).
  { intros i Hi. unfold bd. rewrite ends_app, ends_gab, ends_gbc. destruct (Nat.ltb_spec i (length c - m2)); cbn; lia. }
  symmetry. apply (nth_ext_len _ _ (length abc) 0); auto; [lia|]. intros i Hi. specialize (Er _ (bdx i Hi)).
  assert (Hj : nth i abc 0 < length abc) by now apply C2.
  assert (Hj' : nth i abc' 0 < length abc') by (apply C4; lia).
  set (j := nth i abc 0) in *. set (j' := nth i abc' 0) in *.
  assert (K1 : R1 abc (if i <? length c - m2 then PC i else PA (i - (length c - m2) + m1)) = if j <? length c - m2 then PC j else PA (j - (length c - m2) + m1)).
  { transitivity (match outer (length c - m2) m2 j with Lo i => PC i | Up i => if i <? m2 then PB i else PA (i - m2 + m1) end).
    - unfold j. destruct (Nat.ltb_spec i (length c - m2)); cbn [R1]; unfold read; cbn [code]; [reflexivity|].
      replace (i - (length c - m2) + m1 - m1 + m2 - m2 + (length c - m2)) with i by lia. reflexivity.
    - unfold outer. destruct (Nat.ltb_spec j (length c - m2)); [reflexivity|]. destruct (Nat.ltb_spec (j - (length c - m2) + m2) m2); [lia|]. f_equal. lia. }
  assert (K2 : R2 bc abc' (if i <? length c - m2 then PC i else PA (i - (length c - m2) + m1)) = if j' <? length c - m2 then PC j' else PA (j' - (length c - m2) + m1)).
  { assert (EL : length bc - m1 = length c - m2) by lia.
    transitivity (match outer (length c - m2) m1 j' with Up i => PA i | Lo i => if i <? length c - m2 then PC i else PB (i - (length c - m2) + m2) end).
    - unfold j'. destruct (Nat.ltb_spec i (length c - m2)); cbn [R2]; unfold read; cbn [code]; rewrite EL; [reflexivity|].
      replace (i - (length c - m2) + m1 - m1 + (length c - m2)) with i by lia. reflexivity.
    - unfold outer. destruct (Nat.ltb_spec j' (length c - m2)) as [H|H]; [|reflexivity]. apply Nat.ltb_lt in H. now rewrite H. }
  rewrite K1, K2 in Er. destruct (Nat.ltb_spec j (length c - m2)), (Nat.ltb_spec j' (length c - m2)); try discriminate; injection Er; lia.
Qed.
End Assoc.
