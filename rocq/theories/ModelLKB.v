(** ModelLKB.v – model of LKBRep, /repo/peyl/jonesrep.py lines 279-330. *)
From Verif Require Import Base ModelPoly ModelMatrix ModelTL ModelRep.
Local Open Scope nat_scope.

(** the keys of [gen], jonesrep.py:300: (i, j) for i in range(n) for j in range(i+1, n) *)
Definition lkb_keys (n : nat) : list (nat * nat) :=
  flat_map (fun i => map (fun j => (i, j)) (seq (i + 1) (n - (i + 1)))) (seq 0 n).

(** jonesrep.py:301-322: the dict [col] for the key (i, j), as the list of its
    assignments in order.  [1 - q] and [q - 1] are LPoly.__rsub__ / __sub__ with an
    int; the exponents are positive, so ** is lpow at a natural number. *)
Definition lkb_col (q t : lpoly) (s i j : nat) : res (list ((nat * nat) * num)) :=
  if (i =? s) && (j =? s + 1) then Ok [((i, j), NL (lmul (lmul t q) q))]
  else if (i <? s) && (j =? s) then Ok [((i, j), NL (lrsubi q 1)); ((i, j + 1), NL q)]
  else if (i <? s) && (j =? s + 1) then
    qp <- lpow q (Z.of_nat (j - i)) ;;
    Ok [((i, j - 1), NI 1); ((j - 1, j), NL (lmul (lmul t qp) (lsubi q 1)))]
  else if (i =? s) && (s + 1 <? j) then
    Ok [((i, i + 1), NL (lmul (lmul t q) (lsubi q 1))); ((i + 1, j), NL q)]
  else if (i =? s + 1) && (s + 1 <? j) then Ok [((i - 1, j), NI 1); ((i, j), NL (lrsubi q 1))]
  else if ((i <? j) && (j <? s)) || ((s + 1 <? i) && (i <? j)) then Ok [((i, j), NI 1)]
  else if (i <? s) && (s + 1 <? j) then
    qp <- lpow q (Z.of_nat (s - i)) ;;
    sq <- lpow (lsubi q 1) 2 ;;
    Ok [((i, j), NI 1); ((s, s + 1), NL (lmul (lmul t qp) sq))]
  else Err ValueError.
(** [col.get(row, 0)]: the last assignment to a key wins *)
Definition dict_get (l : list ((nat * nat) * num)) (k : nat * nat) : num :=
  match find (fun e => (fst (fst e) =? fst k) && (snd (fst e) =? snd k)) (rev l) with Some e => snd e | None => NI 0 end.
(** jonesrep.py:299-328: one generator *)
Definition lkb_gen (n : nat) (q t : lpoly) (s : nat) : res (mat num) :=
  cols <- mapM (fun '(i, j) => lkb_col q t s i j) (lkb_keys n) ;;
  mat_from_rows (map (fun row => map (fun col => NL (coerce (dict_get col row))) cols) (lkb_keys n)).
(** jonesrep.py:295-330; the inverses returned are the generators *)
Definition lkb_gens_invs (n : nat) (q t : lpoly) : res (list (mat num) * list (mat num)) :=
  gens <- mapM (lkb_gen n q t) (seq 0 (n - 1)) ;;
  Ok (gens, gens).
(** jonesrep.py:280-293; dimension() is math.comb(n, 2) *)
Definition lkb_rep (n : nat) (p : Z) (q t : lpoly) : res rep :=
  _ <- assert_ (1 <=? n) ;;
  _ <- assert_ (0 <=? p)%Z ;;
  _ <- assert_ (lis_unit q) ;;
  _ <- assert_ (lis_unit t) ;;
  Ok (mkRep n p (Ok (Z.of_nat (comb n 2))) (lkb_gens_invs n q t)).
