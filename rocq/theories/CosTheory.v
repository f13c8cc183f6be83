(** CosTheory.v – the minimal polynomial of z + 1/z for a primitive n-th root of
    unity z, as an integer polynomial, and how the numbers C_(s+1) - C_(s') of
    poly.py:190-211 factor. *)
From Coq Require Import ZArith List Lia.
From mathcomp Require Import all_ssreflect ssralg ssrnum ssrint rat poly polydiv intdiv algC cyclotomic algnum zify.
Import GRing.Theory.
Set Implicit Arguments. Unset Strict Implicit.
Local Open Scope ring_scope.
Local Notation ZtoC := (intr : int -> algC).
Local Notation ZtoQ := (intr : int -> rat).
Local Notation pZtoC := (map_poly ZtoC).
Local Notation pZtoQ := (map_poly ZtoQ).
Local Notation pQtoC := (map_poly (ratr : rat -> algC)).
Local Lemma algC_intr_inj : injective ZtoC. Proof. exact: (@intr_inj [numDomainType of algC]). Qed.

(** C_k(z + 1/z) = z^k + 1/z^k *)
Fixpoint ck (k : nat) : {poly int} :=
  match k with O => 2%:R%:P | k'.+1 => match k' with O => 'X | k''.+1 => 'X * ck k' - ck k'' end end.
Lemma ckSS k : ck k.+2 = 'X * ck k.+1 - ck k. Proof. by []. Qed.
Lemma ck_val k (z : algC) : z != 0 -> (pZtoC (ck k)).[z + z^-1] = z ^+ k + z^-1 ^+ k.
Proof.
move=> z0. suff [] : (pZtoC (ck k)).[z + z^-1] = z ^+ k + z^-1 ^+ k /\ (pZtoC (ck k.+1)).[z + z^-1] = z ^+ k.+1 + z^-1 ^+ k.+1 by [].
elim: k => [|k [IH1 IH2]].
  rewrite /= map_polyC hornerC map_polyX hornerX !expr0 !expr1. by split=> //.
split=> //. rewrite ckSS rmorphB rmorphM /= map_polyX hornerD hornerN hornerM hornerX IH1 IH2.
rewrite mulrDl !mulrDr !exprS. set a := z ^+ k. set b := z^-1 ^+ k.
have e1 : z * (z^-1 * b) = b by rewrite mulrA mulfV ?mul1r.
have e2 : z^-1 * (z * a) = a by rewrite mulrA mulVf ?mul1r.
rewrite e1 e2. move: (z * (z * a)) (z^-1 * (z^-1 * b)) => u v.
by rewrite addrA -(addrA u b a) (addrC b a) [_ + v]addrC -addrA addrK addrC.
Qed.
Lemma ck_size k : (size (ck k) <= k.+1)%N /\ (size (ck k.+1) = k.+2)%N /\ lead_coef (ck k.+1) = 1.
Proof.
elim: k => [|k [IH1 [IH2 IH3]]]; first by rewrite /= size_polyX lead_coefX; split=> //; exact: size_polyC_leq1.
split; first by rewrite IH2.
have e : size ('X * ck k.+1) = k.+3 by rewrite mulrC size_mulX ?IH2 // -size_poly_eq0 IH2.
have l : (size (- ck k)%R < size ('X * ck k.+1)%R)%N by rewrite size_opp e; apply: leq_trans IH1 _.
rewrite ckSS; split; first by rewrite size_addl.
by rewrite lead_coefDl // lead_coefM lead_coefX mul1r.
Qed.

(** the polynomial of poly.py:204-205, rescaled: C_(s+1) - C_(s') with s = n/2,
    s' = s for odd n and s - 1 for even n *)
Definition sp (n : nat) : nat := if odd n then n./2 else n./2.-1.
Definition fn (n : nat) : {poly int} := ck (n./2).+1 - ck (sp n).
Lemma sp_sum n : (0 < n)%N -> ((n./2).+1 + sp n = n)%N.
Proof.
by rewrite /sp; case o: (odd n) => h; lia.
Qed.
Lemma sp_lt n : (sp n <= n./2)%N. Proof. by rewrite /sp; case: odd => //; exact: leq_pred. Qed.
Lemma fn_size n : (size (fn n) = (n./2).+2)%N /\ fn n \is monic.
Proof.
have [_ [h2 h3]] := ck_size n./2. have [h1 _] := ck_size (sp n).
have l : (size (- ck (sp n))%R < size (ck (n./2).+1))%N by rewrite size_opp h2 ltnS; apply: leq_trans h1 _; rewrite ltnS; exact: sp_lt.
by rewrite /fn size_addl // monicE lead_coefDl // h3 h2.
Qed.
Lemma fn_root n (a : algC) : (0 < n)%N -> a ^+ n = 1 -> root (pZtoC (fn n)) (a + a^-1).
Proof.
move=> n0 an. have a0 : a != 0 by apply/eqP => e; move: an; rewrite e expr0n eqn0Ngt n0 => /eqP; rewrite eq_sym oner_eq0.
rewrite rootE /fn. move: (ck_val (n./2).+1 a0) (ck_val (sp n) a0). move: (ck _) (ck _) => u v hu hv. rewrite rmorphB /= hornerD hornerN hu hv. have e : a ^+ (n./2).+1 = (a ^+ sp n)^-1.
  by apply: (mulIf (expf_neq0 (sp n) a0)); rewrite -exprD sp_sum // an mulVf // expf_neq0.
by rewrite !exprVn e invrK [X in X - _]addrC subrr.
Qed.

(** ** a + 1/a determines a up to inversion *)
Lemma sum_inv (a b : algC) : a != 0 -> b != 0 -> a + a^-1 = b + b^-1 -> a = b \/ a = b^-1.
Proof.
move=> a0 b0 e. have : (a - b) * (a - b^-1) == 0.
  have -> : (a - b) * (a - b^-1) = a * (a + a^-1 - (b + b^-1)).
    rewrite mulrBl !mulrBr !mulrDr mulfV // mulfV //. rewrite opprB opprD.
    rewrite -[LHS]addrA -[RHS]addrA; congr (_ + _). rewrite [LHS]addrC [b * a]mulrC -!addrA. by congr (_ + _); rewrite addrC.
  by rewrite e subrr mulr0.
rewrite mulf_eq0 !subr_eq0 => /orP [/eqP|/eqP]; [by left|by right].
Qed.
Lemma prim_neq0 n (a : algC) : n.-primitive_root a -> a != 0.
Proof.
move=> h. apply/eqP => e. have := prim_expr_order h. rewrite e expr0n eqn0Ngt (prim_order_gt0 h) => /eqP. by rewrite eq_sym oner_eq0.
Qed.
Lemma prim_inv n (a : algC) : n.-primitive_root a -> n.-primitive_root a^-1.
Proof.
move=> h. have n0 := prim_order_gt0 h. have e : a^-1 = a ^+ n.-1.
  by apply: (mulfI (prim_neq0 h)); rewrite mulfV ?(prim_neq0 h) // -exprS prednK // prim_expr_order.
by rewrite e prim_root_exp_coprime // coprime_sym coprimenP.
Qed.

(** ** the list of the a + 1/a, a a primitive n-th root *)
Definition proot (n : nat) : algC := if n is m.+1 then sval (C_prim_root_exists (ltn0Sn m)) else 1.
Lemma proot_prim n : (0 < n)%N -> n.-primitive_root (proot n).
Proof. by case: n => // n _; rewrite /proot; case: C_prim_root_exists. Qed.
Definition th (n k : nat) : algC := proot n ^+ k + (proot n ^+ k)^-1.
Definition plist (n : nat) : seq algC := undup [seq th n k | k <- iota 0 n & coprime k n].
Lemma plistP n x : (0 < n)%N -> reflect (exists2 a, n.-primitive_root a & x = a + a^-1) (x \in plist n).
Proof.
move=> n0. have hp := proot_prim n0. rewrite /plist mem_undup. apply: (iffP mapP) => [[k]|[a ha ->]].
  rewrite mem_filter => /andP [ck _] ->. exists (proot n ^+ k) => //. by rewrite prim_root_exp_coprime.
have [i e] := prim_rootP hp (prim_expr_order ha). exists (nat_of_ord i); last by rewrite /th -e.
rewrite mem_filter mem_iota /= add0n ltn_ord andbT. by rewrite -(prim_root_exp_coprime i hp) -e.
Qed.
Definition psi (n : nat) : {poly algC} := \prod_(x <- plist n) ('X - x%:P).
Lemma psi_monic n : psi n \is monic. Proof. exact: monic_prod_XsubC. Qed.

(** all n-th roots *)
Definition rlist (n : nat) : seq algC := [seq th n k | k <- iota 0 (n./2).+1].
Lemma half_lt n : (0 < n)%N -> (n./2 < n)%N. Proof. lia. Qed.
Lemma rlist_uniq n : (0 < n)%N -> uniq (rlist n).
Proof.
move=> n0. have hp := proot_prim n0. rewrite map_inj_in_uniq ?iota_uniq // => i j.
rewrite !mem_iota /= !add0n !ltnS.
wlog: i j / (i <= j)%N.
  move=> H hi hj e. case/orP: (leq_total i j) => h; first exact: H. by apply/esym/H.
move=> hij hi hj. have xi k : proot n ^+ k != 0 by rewrite expf_neq0 // (prim_neq0 hp).
have hd k : (k <= n./2)%N -> (k < n)%N by move=> h; apply: leq_ltn_trans h (half_lt n0).
case/(sum_inv (xi i) (xi j)) => /eqP.
  by rewrite (eq_prim_root_expr hp) !modn_small ?hd // => /eqP.
rewrite -(inj_eq (mulIf (xi j))) mulVf ?xi // -exprD -(prim_order_dvd hp) => /dvdnP [[|q] e].
  by move/eqP: e; rewrite mul0n addn_eq0 => /andP [/eqP -> /eqP ->].
case: (ltnP i j) => [lij|]; last by move=> h; apply/eqP; rewrite eqn_leq hij.
have : (n <= i + j)%N by rewrite e mulSn leq_addr.
rewrite leqNgt. have -> // : (i + j < n)%N.
apply: (@leq_trans (j + j)); first by rewrite ltn_add2r.
rewrite addnn. apply: (@leq_trans (n./2).*2); first by rewrite leq_double. by rewrite -{2}(odd_double_half n) leq_addl.
Qed.
Lemma rlistP n x : (0 < n)%N -> reflect (exists2 a, a ^+ n = 1 & x = a + a^-1) (x \in rlist n).
Proof.
move=> n0. have hp := proot_prim n0. apply: (iffP mapP) => [[k _ ->]|[a ha ->]].
  exists (proot n ^+ k) => //. by rewrite exprAC (prim_expr_order hp) expr1n.
have [[i hi] e] := prim_rootP hp ha. rewrite [nat_of_ord _]/= in e. case: (leqP i n./2) => h.
  by exists i; [rewrite mem_iota /= add0n ltnS | rewrite /th -e].
have e2 : (proot n ^+ (n - i)) = a^-1.
  apply: (@mulfI _ a); first by rewrite e expf_neq0 // (prim_neq0 hp).
  rewrite mulfV; last by rewrite e expf_neq0 // (prim_neq0 hp).
  by rewrite e -exprD subnKC ?(prim_expr_order hp) // ltnW.
exists (n - i)%N; last by rewrite /th e2 invrK addrC.
rewrite mem_iota /= add0n ltnS. rewrite leq_subLR. apply: (@leq_trans ((n./2).+1 + n./2)); last by rewrite leq_add2r.
rewrite addSn addnn -{1}(odd_double_half n). by case: odd.
Qed.
Lemma fn_prod n : (0 < n)%N -> pZtoC (fn n) = \prod_(x <- rlist n) ('X - x%:P).
Proof.
move=> n0. have [hs hm] := fn_size n. have i := algC_intr_inj.
rewrite (@all_roots_prod_XsubC _ (pZtoC (fn n)) (rlist n)).
- by rewrite (lead_coef_map_inj i) // (monicP hm) scale1r.
- by rewrite (size_map_inj_poly i) // hs size_map size_iota.
- by apply/allP => x /(rlistP _ n0) [a ha ->]; exact: fn_root.
- by rewrite uniq_rootsE rlist_uniq.
Qed.

(** the order of an n-th root divides n *)
Lemma plist_disj d e x : (0 < d)%N -> (0 < e)%N -> x \in plist d -> x \in plist e -> d = e.
Proof.
move=> d0 e0 /(plistP _ d0) [a ha ->] /(plistP _ e0) [b hb].
have U m k (c : algC) : m.-primitive_root c -> k.-primitive_root c -> m = k.
  move=> h1 h2. apply/eqP. by rewrite eqn_dvd (prim_order_dvd h1) (prim_order_dvd h2) (prim_expr_order h1) (prim_expr_order h2) eqxx.
case/(sum_inv (prim_neq0 ha) (prim_neq0 hb)) => h.
  by apply: (U _ _ a) => //; rewrite h.
by apply: (U _ _ a) => //; rewrite h; exact: prim_inv.
Qed.
Lemma rlist_plist n : (0 < n)%N -> perm_eq (rlist n) (flatten [seq plist d | d <- divisors n]).
Proof.
move=> n0. have dv d : d \in divisors n -> (0 < d)%N /\ (d %| n)%N.
  by rewrite -dvdn_divisors // => h; split=> //; exact: dvdn_gt0 h.
apply: uniq_perm; first exact: rlist_uniq.
- have: {subset divisors n <= divisors n} by []. have: uniq (divisors n) := divisors_uniq n.
  elim: {1 2 4}(divisors n) => //= d l IH /andP [hd hl] hs.
  rewrite cat_uniq IH ?andbT //; last by move=> e he; apply: hs; rewrite in_cons he orbT.
  rewrite undup_uniq /=. apply/hasPn => x /flatten_mapP [e he hx]. apply/negP => hx'.
  have [d0 _] := dv d (hs d (mem_head _ _)). have he' : e \in d :: l by rewrite in_cons he orbT.
  have [e0 _] := dv e (hs e he').
  move: hd. by rewrite (plist_disj d0 e0 hx' hx) he.
move=> x. apply/(rlistP _ n0)/flatten_mapP.
- case=> a ha ->. have [d hd dn] := prim_order_exists n0 ha.
  exists d; first by rewrite -dvdn_divisors. apply/plistP; first exact: prim_order_gt0 hd. by exists a.
- case=> d /dv [d0 dn] /(plistP _ d0) [a ha ->]. exists a => //.
  by apply/eqP; rewrite -(prim_order_dvd ha).
Qed.
Lemma fn_psi n : (0 < n)%N -> pZtoC (fn n) = \prod_(d <- divisors n) psi d.
Proof.
move=> n0. rewrite fn_prod // (perm_big _ (rlist_plist n0)) /=.
elim: (divisors n) => [|d l IH] /=; first by rewrite !big_nil.
by rewrite big_cat big_cons IH.
Qed.

(** ** monic division in Z[x] *)
Import Pdiv.CommonRing Pdiv.RingMonic.
Lemma int_div (F D : {poly int}) (W : {poly algC}) : D \is monic -> pZtoC F = pZtoC D * W -> exists Q, pZtoC Q = W.
Proof.
move=> mD e. have i := algC_intr_inj. exists (rdivp F D). have := rdivp_eq mD F. move/(congr1 pZtoC).
rewrite rmorphD rmorphM /= e [pZtoC (rdivp _ _) * _]mulrC => /eqP. rewrite addrC -subr_eq -mulrBr => /eqP h.
apply/eqP; rewrite eq_sym -subr_eq0; apply/negPn/negP => nz.
have sz : (size (rmodp F D) < size D)%N by rewrite ltn_rmodp monic_neq0.
move: sz. rewrite -(size_map_inj_poly i (rmorph0 _)) -h -(size_map_inj_poly i (rmorph0 _) D) ltnNge.
have nD : pZtoC D != 0 by rewrite -size_poly_eq0 (size_map_inj_poly i) // size_poly_eq0 monic_neq0.
rewrite size_mul // -subn1. have : (0 < size (W - pZtoC (rdivp F D))%R)%N by rewrite lt0n size_poly_eq0.
case: (size (W - _)) => // k _. by rewrite addnS subn1 /= leq_addr.
Qed.
Theorem psi_int n : (0 < n)%N -> exists Q : {poly int}, pZtoC Q = psi n.
Proof.
elim/ltn_ind: n => n IH n0. have i := algC_intr_inj.
have dv d : d \in divisors n -> (0 < d)%N /\ (d %| n)%N.
  by rewrite -dvdn_divisors // => h; split=> //; exact: dvdn_gt0 h.
have [D [mD eD]] : exists D : {poly int}, D \is monic /\ pZtoC D = \prod_(d <- rem n (divisors n)) psi d.
  have: {in rem n (divisors n), forall d, (d < n)%N /\ (0 < d)%N}.
    move=> d. rewrite mem_rem_uniq ?divisors_uniq // inE => /andP [h /dv [h1 h2]]. split=> //.
    by rewrite ltn_neqAle h dvdn_leq.
  elim: (rem n _) => [|d l IHl] h.
    by exists 1; rewrite big_nil rmorph1 monic1.
  have [|D [mD eD]] := IHl; first by move=> d' hd'; apply: h; rewrite in_cons hd' orbT.
  have [hd d0] := h d (mem_head _ _). have [Q eQ] := IH d hd d0.
  exists (Q * D). rewrite big_cons -eD -eQ rmorphM. split=> //. apply: rpredM => //.
  rewrite monicE -(inj_eq i) -(lead_coef_map_inj i) //. rewrite eQ (monicP (psi_monic d)). by rewrite rmorph1.
apply: (@int_div (fn n) D) => //. rewrite eD mulrC fn_psi // (big_rem n) //=. by rewrite -dvdn_divisors.
Qed.

(** ** the integer polynomial *)
Definition Psi (n : nat) : {poly int} := map_poly floorC (psi n).
Lemma Psi_C n : (0 < n)%N -> pZtoC (Psi n) = psi n.
Proof.
move=> n0. have [Q eQ] := psi_int n0. rewrite /Psi floorCpK //. apply/polyOverP => i. by rewrite -eQ coef_map Cint_int.
Qed.
Lemma Psi_monic n : (0 < n)%N -> Psi n \is monic.
Proof.
move=> n0. have i := algC_intr_inj. rewrite monicE -(inj_eq i) -(lead_coef_map_inj i) // Psi_C // (monicP (psi_monic n)).
by rewrite rmorph1.
Qed.
Theorem fn_Psi n : (0 < n)%N -> fn n = \prod_(d <- divisors n) Psi d.
Proof.
move=> n0. apply: (map_inj_poly algC_intr_inj (rmorph0 _)). rewrite fn_psi // rmorph_prod /=.
apply: eq_big_seq => d. rewrite -dvdn_divisors // => h. by rewrite Psi_C //; exact: dvdn_gt0 h.
Qed.
Lemma ZQC (q : {poly int}) : pQtoC (pZtoQ q) = pZtoC q.
Proof. rewrite -map_poly_comp. by apply: eq_map_poly => c; rewrite /= rmorph_int. Qed.
Theorem Psi_min n (a : algC) : n.-primitive_root a -> minCpoly (a + a^-1) = psi n.
Proof.
move=> ha. have n0 := prim_order_gt0 ha.
apply/eqP; rewrite -eqp_monic ?minCpoly_monic ?psi_monic //. apply/andP; split.
- have [q [-> _] hq] := minCpolyP (a + a^-1). rewrite -Psi_C // -ZQC dvdp_map -hq ZQC Psi_C //.
  rewrite root_prod_XsubC. apply/plistP => //. by exists a.
- apply: uniq_roots_dvdp; last by rewrite uniq_rootsE undup_uniq.
  apply/allP => x /(plistP _ n0) [b hb ->]. have [[k hk] e] := prim_rootP ha (prim_expr_order hb).
  rewrite [nat_of_ord _]/= in e. have ck : coprime k n by rewrite -(prim_root_exp_coprime k ha) -e.
  have [u hu] := Qn_aut_exists ck. rewrite -(minCpoly_aut u). have -> : b + b^-1 = u (a + a^-1); last exact: root_minCpoly.
  by rewrite rmorphD fmorphV /= hu ?(prim_expr_order ha) // -e.
Qed.
(** every integer polynomial is a multiple of Psi or is coprime to it *)
Theorem Psi_alt n (q : {poly int}) : (0 < n)%N ->
  (exists u, q = Psi n * u) \/ exists u v (c : int), c != 0 /\ u * Psi n + v * q = c%:P.
Proof.
move=> n0. have ha := proot_prim n0. set a := proot n in ha. have hm := Psi_min ha.
have [P [eP mP] hP] := minCpolyP (a + a^-1).
have eP' : P = pZtoQ (Psi n).
  apply: (map_inj_poly (fmorph_inj [rmorphism of ratr : rat -> algC]) (rmorph0 _)) => /=. by rewrite -[RHS]/(pQtoC (pZtoQ (Psi n))) ZQC Psi_C // -hm eP.
have nP : P != 0 by exact: monic_neq0.
have root_ok : P %| pZtoQ q -> exists u, q = Psi n * u.
  rewrite -(dvdp_map [rmorphism of ratr : rat -> algC]) /= -[map_poly _ P]/(pQtoC P) -[map_poly _ (pZtoQ q)]/(pQtoC (pZtoQ q)) -eP hm ZQC => /dvdpP [W eW].
  have [|u hu] := @int_div q (Psi n) W (Psi_monic n0); first by rewrite Psi_C // mulrC.
  exists u. apply: (map_inj_poly algC_intr_inj (rmorph0 _)). by rewrite eW rmorphM /= Psi_C // hu mulrC.
case: (boolP (coprimep P (pZtoQ q))) => [/Bezout_coprimepP [[u0 v0] /= e0]|nc]; [right|left].
- have [k k0 ek] : exists2 k, k != 0 & u0 * P + v0 * pZtoQ q = k%:P by move: e0; rewrite -size_poly_eq1 => /size_poly1P.
  pose u := k^-1 *: u0; pose v := k^-1 *: v0.
  have e : u * P + v * pZtoQ q = 1 by rewrite -!scalerAl -scalerDr ek -mul_polyC -polyCM mulVf.
  clearbody u v.
  have [u' [c c0 eu]] := rat_poly_scale u. have [v' [d d0 ev]] := rat_poly_scale v.
  exists (d *: u'), (c *: v'), (c * d). split; first by rewrite mulf_neq0.
  apply: (map_inj_poly (intr_inj : injective ZtoQ) (rmorph0 _)).
  rewrite rmorphD !rmorphM /= !map_polyZ /= map_polyC /= -eP'.
  have -> : pZtoQ u' = c%:~R *: u by rewrite eu scalerA mulfV ?scale1r // intr_eq0.
  have -> : pZtoQ v' = d%:~R *: v by rewrite ev scalerA mulfV ?scale1r // intr_eq0.
  rewrite !scalerA [_ * c%:~R]mulrC -!scalerAl -scalerDr. rewrite e. by rewrite map_polyC /= -polyCM -mul_polyC mulr1.
- apply: root_ok. set g := gcdp P (pZtoQ q). have gP : g %| P := dvdp_gcdl _ _.
  have /dvdpP [h eh] := gP.
  have r : root (pQtoC P) (a + a^-1) by rewrite hP.
  move: r. rewrite {1}eh rmorphM rootM !hP. case/orP => [Ph|Pg]; last exact: (dvdp_trans Pg (dvdp_gcdr _ _)).
  case/negP: nc. have nh : h != 0 by apply/eqP => e0; move: nP; rewrite eh e0 mul0r eqxx.
  have ng : g != 0 by apply/eqP => e0; move: nP; rewrite eh e0 mulr0 eqxx.
  have := dvdp_leq nh Ph. rewrite {1}eh size_mul // => hs. rewrite /coprimep -/g.
  move: ng nh hs. rewrite -!size_poly_eq0 /=. move: (size g) (size h) => [|[|x]] [|y] //. by rewrite addSn /= !addnS ltnS ltnNge leq_addr.
Qed.
