(** DescTheory3.v – nf_suffixes: what it depends on, and that every braid of length
    at least one has suffixes of every length. *)
From Verif Require Import Base.
From Verif Require Import ModelPerm Germ GermNF GermAct GermBraid PermTheory WeakOrder SpecBraid ModelBraid TableTheory NFApi PermGerm PermTable PropsGNF PropsGNF2.
Local Open Scope nat_scope.

Section S.
Variables (n : nat) (tb : nat -> res (nftable (list nat))).
Hypothesis (n2 : 2 <= n) (Ht : gnf_table n tb).
Local Notation ok := (ok (PG n) (peqd n)).
Local Notation enc := (TableTheory.enc (PG n) n (idx n)).
Lemma suffixes_enc d l k : (0 <= k)%Z -> ok (d, l) ->
  exists ls, nf_suffixes tb (enc (d, l)) k = Ok (map (fun m => enc (d, m)) ls) /\ NoDup ls /\ forall m, In m ls <-> (length m = Z.to_nat k /\ ok (0%Z, m) /\ ok (0%Z, l ++ m)).
Proof using n2 Ht.
  intros Hk Ho. destruct (suffixes_ok n n2 d l k Hk Ho) as [ls [E1 [ND H]]]. exists ls. split; [|split; [exact ND|exact H]].
  unfold nf_suffixes. cbn [o_n TableTheory.enc]. rewrite (gnf_table_ptab n tb Ht). cbn [bind]. rewrite E1. cbn [bind o_pow TableTheory.enc fst snd].
  rewrite (mapM_ok _ (fun f => NFObj n d f)).
  - rewrite map_map. reflexivity.
  - intros f Hf. apply in_map_iff in Hf. destruct Hf as [m [<- Hm]]. apply H in Hm. destruct Hm as [_ [Om _]]. apply (mkE n tb n2 Ht d m). exact Om.
Qed.
Lemma Rdes_sg i : i + 1 < n -> Rdes (sg n i) i.
Proof using n2. intros Hi. unfold Rdes. rewrite app_sg_i, app_sg_i1 by assumption. lia. Qed.
Lemma Ldes_sg i j : i + 1 < n -> j + 1 < n -> Ldes (sg n i) j -> j = i.
Proof using n2.
  intros Hi Hj. unfold Ldes. rewrite pinv_sg by assumption. rewrite !app_sg by lia. destruct (Nat.eqb_spec j i); [auto|]. destruct (Nat.eqb_spec (j + 1) i); destruct (Nat.eqb_spec (j + 1) (i + 1)); destruct (Nat.eqb_spec j (i + 1)); lia.
Qed.
Lemma atom_follows i s : i + 1 < n -> Rdes (val n s) i -> nrm (PG n) s (atom n i).
Proof using n2.
  clear Ht. intros Hi R. apply nrm_loc. rewrite val_atom by assumption. intros j Hj L. apply Ldes_sg in L; [|assumption|assumption]. now subst j.
Qed.
Lemma atom_proper i s : i + 1 < n -> Rdes (val n s) i -> s <> D (PG n) -> proper (PG n) (atom n i).
Proof using n2.
  clear Ht. intros Hi R ND. split; intros E.
  - assert (K : val n (atom n i) = val n (pone n)) by now f_equal. rewrite val_atom, val_one in K by exact Hi. pose proof (app_sg_i n i Hi) as Q. rewrite K in Q. rewrite app_id in Q by lia. lia.
  - assert (K : val n (atom n i) = val n (pD n)) by now f_equal. rewrite val_atom, val_D in K by exact Hi. destruct (Nat.eq_dec n 2) as [N|N].
    + apply ND. apply val_inj. change (val n s = val n (pD n)). rewrite val_D. pose proof (val_P n s) as Ps. apply (isperm_ext n); auto using isperm_longest. unfold Rdes in R. assert (i = 0) by lia. subst i. assert (H0 : ap (val n s) 0 < n) by (apply isperm_app_lt; auto; lia). cbn [Nat.add] in R. intros [|[|j]] Hj; [rewrite app_longest by lia; lia|rewrite app_longest by lia; lia|lia].
    + pose proof (app_sg_i n i Hi) as Q. pose proof (app_sg_i1 n i Hi) as Q'. rewrite K in Q, Q'. rewrite app_longest in Q by lia. rewrite app_longest in Q' by lia.
      destruct (Nat.eq_dec i 0) as [->|I0]; [lia|]. assert (Q2 : ap (sg n i) 0 = 0) by (apply app_sg_o; lia). rewrite K, app_longest in Q2 by lia. lia.
Qed.
Lemma suffixes_nonempty d l k : l <> [] -> ok (d, l) -> exists m, length m = k /\ ok (0%Z, m) /\ ok (0%Z, l ++ m).
Proof using n2.
  clear Ht. pose proof (ptab_ok n n2) as TK. intros NL Ho. destruct (exists_last NL) as [q [s ->]]. rewrite (ok_proper _ _ _ _ _ _ _ _ _ TK) in Ho. destruct Ho as [O1 O2]. rewrite Forall_app in O2. destruct O2 as [O2 O3]. inversion O3 as [|? ? [S1 S2] _]; subst.
  destruct (ex_Rdes n (val n s) (val_P n s)) as (i & Hi & Ri). { intros E. apply S1. apply val_inj. change (val n s = val n (pone n)). now rewrite val_one. }
  pose proof (atom_follows i s Hi Ri) as F1. pose proof (atom_proper i s Hi Ri S2) as F2. assert (F3 : nrm (PG n) (atom n i) (atom n i)) by (apply atom_follows; [exact Hi|]; rewrite val_atom by exact Hi; now apply Rdes_sg).
  exists (repeat (atom n i) k). split; [apply repeat_length|]. rewrite !(ok_proper _ _ _ _ _ _ _ _ _ TK). rewrite <- app_assoc. cbn [List.app].
  assert (NR : nf (PG n) (repeat (atom n i) k)). { induction k as [|k IH]; [exact I|]. destruct k as [|k]; [cbn; auto|]. split; [exact F3|exact IH]. }
  assert (FR : Forall (proper (PG n)) (repeat (atom n i) k)) by (apply Forall_forall; intros x Hx; apply repeat_spec in Hx; now subst x).
  split; [split; assumption|]. split; [|rewrite Forall_app; split; [exact O2|constructor; [split; assumption|exact FR]]].
  apply nf_glue. split; [exact O1|]. destruct k as [|k]; [cbn; auto|]. split; [exact F1|exact NR].
Qed.
End S.
