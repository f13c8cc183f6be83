(** ModelTLMor.v – model of class TLMor and class TLCell, /repo/peyl/tl.py lines
    328-541, and of tl_gens_invs, cell_matrix and cell_matrices,
    /repo/peyl/jonesrep.py lines 25-60.

    A Python dict is the list of its items in insertion order; the keys of the
    list are distinct.  Overloaded operators are split by the type of the other
    operand.  _repr_html_ and draw_svg are not modelled. *)
From Verif Require Import Base ModelPoly ModelTL ModelMatrix.

(** tl.py:328 *)
Definition Q2 : lpoly := lpoly_make (-1) [1; 0; 1]%Z.
(** the literals LPoly(0, ()) and LPoly(0, (1,)) *)
Definition L0 : lpoly := lpoly_make 0 [].
Definition L1 : lpoly := lpoly_make 0 [1]%Z.

(** ** dictionaries keyed by diagrams *)
Definition terms := list (diag * lpoly).
(** [d.get(k)] / [k in d] *)
Fixpoint tget (l : terms) (d : diag) : option lpoly :=
  match l with
  | [] => None
  | (d', c) :: l' => if diag_eqb d' d then Some c else tget l' d
  end.
(** [d[k] = c]: an existing key keeps its place *)
Fixpoint tset (l : terms) (d : diag) (c : lpoly) : terms :=
  match l with
  | [] => [(d, c)]
  | (d', c') :: l' => if diag_eqb d' d then (d', c) :: l' else (d', c') :: tset l' d c
  end.

(** ** class TLMor *)
(** tl.py:335-337 *)
Record mor := mkMor { motop : nat; mobot : nat; moterms : terms }.
(** tl.py:339-346.  The keys are distinct, so the tuples (diag, coeff) are
    sorted by their first component. *)
Definition mor_make (top bot : nat) (t : terms) : res mor :=
  if negb (forallb (fun '(d, _) => (dtop d =? top) && (dbot d =? bot)) t) then Err ValueError
  else Ok (mkMor top bot (filter (fun '(_, c) => negb (lis_zero c)) (sorted_by (fun x y => diag_leb (fst x) (fst y)) t))).
(** tl.py:348-351 *)
Definition mor_id (n : nat) : res mor := d <- tld_id n ;; mor_make n n [(d, L1)].
(** tl.py:353-362 *)
Definition mor_e (i n : nat) : res mor :=
  _ <- assert_ (S i <? n) ;;
  d <- tld n n (e_seq i n) ;;
  mor_make n n [(d, L1)].
(** tl.py:369-371 *)
Definition mor_of_diag (d : diag) : res mor := mor_make (dtop d) (dbot d) [(d, L1)].
(** tl.py:364-367 *)
Definition mor_basis (top bot : nat) : res (list mor) :=
  ds <- tl_basis top bot ;; mapM (fun d => mor_make top bot [(d, L1)]) ds.
(** tl.py:380-384 *)
Definition mor_coefficient (m : mor) (d : diag) : res lpoly :=
  if negb ((motop m =? dtop d) && (mobot m =? dbot d)) then Err ValueError
  else Ok (match tget (moterms m) d with Some c => c | None => L0 end).
(** tl.py:386-387 *)
Definition mor_is_zero (m : mor) : bool := match moterms m with [] => true | _ => false end.
(** tl.py:389-391 *)
Definition mor_quotient (m : mor) (strands : nat) : res mor :=
  mor_make (motop m) (mobot m) (filter (fun '(d, _) => strands <=? through_strands d) (moterms m)).
(** tl.py:393-398 *)
Definition mor_trace (m : mor) : res lpoly :=
  foldM (fun result '(d, c) =>
      k <- trace_count (dseq d) ;;
      q <- lpow Q2 (Z.of_nat k) ;;
      Ok (ladd result (lmul c q)))
    (moterms m) L0.
(** tl.py:401-402 (and 465-467: [scalar * mor] is [mor * scalar]) *)
Definition mor_scale (m : mor) (x : num) : res mor :=
  mor_make (motop m) (mobot m) (map (fun '(d, c) => (d, match x with NI k => lmuli c k | NL p => lmul c p end)) (moterms m)).
(** tl.py:410-424: multiplication of two TLMors.  Line 421: the product is
    [(Q2 ** bubbles * c_up) * c_low]. *)
Definition mor_mul_step (upper lower : mor) (result : terms) (up : diag * lpoly) (low : diag * lpoly) : res terms :=
  '(s, bubbles) <- compose (dseq (fst up)) (dseq (fst low)) (mobot upper) ;;
  d <- tld (motop upper) (mobot lower) s ;;
  let result := match tget result d with None => tset result d L0 | Some _ => result end in
  q <- lpow Q2 (Z.of_nat bubbles) ;;
  match tget result d with
  | None => Err KeyError
  | Some old => Ok (tset result d (ladd old (lmul (lmul q (snd up)) (snd low))))
  end.
Definition mor_mul (upper lower : mor) : res mor :=
  if negb (mobot upper =? motop lower) then Err ValueError
  else
    result <- foldM (fun result up => foldM (fun result low => mor_mul_step upper lower result up low) (moterms lower) result)
      (moterms upper) [] ;;
    mor_make (motop upper) (mobot lower) result.
(** tl.py:404-405, [mor * diag] *)
Definition mor_mul_diag (m : mor) (d : diag) : res mor :=
  l <- mor_make (dtop d) (dbot d) [(d, L1)] ;; mor_mul m l.
(** tl.py:436-446 *)
Definition mor_add (x y : mor) : res mor :=
  if negb ((motop x =? motop y) && (mobot x =? mobot y)) then Err ValueError
  else mor_make (motop x) (mobot x)
    (fold_left (fun t '(d, c) => match tget t d with None => tset t d c | Some old => tset t d (ladd old c) end) (moterms y) (moterms x)).
(** tl.py:427-434: adding a scalar *)
Definition mor_addn (x : mor) (s : num) : res mor :=
  let p := coerce s in
  if mobot x =? motop x then
    i <- mor_id (mobot x) ;; i <- mor_scale i (NL p) ;; mor_add x i
  else Err ValueError.
(** tl.py:459-460 *)
Definition mor_neg (m : mor) : res mor :=
  mor_make (motop m) (mobot m) (map (fun '(d, c) => (d, lneg c)) (moterms m)).
(** tl.py:462-463 *)
Definition mor_sub (x y : mor) : res mor := y <- mor_neg y ;; mor_add x y.
Definition mor_subn (x : mor) (s : num) : res mor := mor_addn x (nneg s).
(** tl.py:451-457.  The parameter twist_v is not used by the code.
    [evaluate] returns the int 0 for a zero polynomial, on which [is_zero] of
    line 346 would raise AttributeError (here TypeError); zero coefficients are
    never stored. *)
Definition mor_flip (twist_v : bool) (m : mor) : res mor :=
  t <- foldM (fun t '(d, c) =>
         d' <- tld_flip d ;;
         x <- levaluate c (lpoly_make (-1) [1]%Z) ;;
         match x with NI _ => Err TypeError | NL c' => Ok (tset t d' c') end)
       (moterms m) [] ;;
  mor_make (mobot m) (motop m) t.
(** tl.py:471-488 *)
Fixpoint mor_pow_loop (fuel : nat) (exp : Z) (acc pow2 : mor) : res mor :=
  match fuel with
  | 0 => Err OutOfFuel
  | S fuel' =>
      if (exp =? 0)%Z then Ok acc
      else
        acc' <- (if (exp mod 2 =? 1)%Z then mor_mul acc pow2 else Ok acc) ;;
        pow2' <- mor_mul pow2 pow2 ;;
        mor_pow_loop fuel' (exp / 2)%Z acc' pow2'
  end.
Definition mor_pow (m : mor) (exp : Z) : res mor :=
  if negb (motop m =? mobot m) then Err ValueError
  else if (exp <? 0)%Z then Err ValueError
  else acc <- mor_id (motop m) ;; mor_pow_loop (S (S (Z.to_nat (Z.log2 exp)))) exp acc m.
(** [==] of the dataclass (tl.py:330): the dicts are compared item by item. *)
Definition mor_eqb (x y : mor) : bool :=
  (motop x =? motop y) && (mobot x =? mobot y) && (length (moterms x) =? length (moterms y)) &&
  forallb (fun '(d, c) => match tget (moterms y) d with Some c' => leqb c c' | None => false end) (moterms x).

(** ** class TLCell, tl.py:505-541 *)
(** tl.py:512-513 *)
Definition cell_ok (n r : nat) : bool := 2 * r <=? n.
(** tl.py:521-524 *)
Definition project_vector (n r : nat) (m : mor) : res mor :=
  _ <- assert_ (mobot m =? n) ;; mor_quotient m (n - 2 * r).
(** tl.py:526-541: rows[i][j] is set for all i, j *)
Definition project_leftmult_matrix (n r : nat) (m : mor) : res (mat lpoly) :=
  basis <- cell_basis n r ;;
  cols <- mapM (fun vj =>
      p <- mor_mul_diag m vj ;;
      q <- mor_quotient p (n - 2 * r) ;;
      Ok (map (fun vi => match tget (moterms q) vi with Some c => c | None => L0 end) basis)) basis ;;
  mat_from_rows (map (fun i => map (fun col => nth i col L0) cols) (seq 0 (length basis))).

(** ** jonesrep.py *)
Definition vL : lpoly := lpoly_make 0 [0; 1]%Z.
(** jonesrep.py:25-36.  [-v*(e - v**-1)] is [LPoly * TLMor], i.e.
    TLMor.__rmul__; [e - v**-1] is TLMor.__sub__ with an LPoly. *)
Definition tl_gen (vi : lpoly) (e : mor) : res mor := x <- mor_subn e (NL vi) ;; mor_scale x (NL (lneg vL)).
Definition tl_inv (vi : lpoly) (e : mor) : res mor := x <- mor_subn e (NL vL) ;; mor_scale x (NL (lneg vi)).
Definition tl_gens_invs (n : nat) : res (list mor * list mor) :=
  es <- mapM (fun i => mor_e i n) (seq 0 (n - 1)) ;;
  vi <- lpow vL (-1) ;;
  gens <- mapM (tl_gen vi) es ;;
  invs <- mapM (tl_inv vi) es ;;
  _ <- foldM (fun (_ : unit) '(x, y) =>
         p <- mor_mul x y ;; i <- mor_id n ;; assert_ (mor_eqb p i)) (combine gens invs) tt ;;
  Ok (gens, invs).
(** jonesrep.py:39-51.  [zip( *columns)] transposes: row i collects the i-th
    entries of the columns (all of the same length). *)
Definition zip_star {A} (d : A) (columns : list (list A)) : list (list A) :=
  match columns with
  | [] => []
  | c :: _ => map (fun i => map (fun col => nth i col d) columns) (seq 0 (length c))
  end.
Definition cell_matrix (m : mor) (r : nat) : res (mat lpoly) :=
  _ <- assert_ (motop m =? mobot m) ;;
  basis <- cell_basis (mobot m) r ;;
  prods <- mapM (fun b => mor_mul_diag m b) basis ;;
  columns <- mapM (fun prod =>
      q <- mor_quotient prod (motop m - 2 * r) ;;
      mapM (fun b => mor_coefficient q b) basis) prods ;;
  mat_from_rows (zip_star L0 columns).
(** jonesrep.py:53-56 *)
Definition cell_matrices (n r : nat) : res (list (mat lpoly) * list (mat lpoly)) :=
  '(g, i) <- tl_gens_invs n ;;
  g <- mapM (fun x => cell_matrix x r) g ;;
  i <- mapM (fun x => cell_matrix x r) i ;;
  Ok (g, i).

(** ** the rest of tl.py *)
(** TLCell.trace_scalar, tl.py:536-541 (n - 2r is not negative, line 510) *)
Definition trace_scalar (n r : nat) : lpoly := quantum_integer (Z.of_nat n - 2 * Z.of_nat r + 1).
(** JonesRep(n).cells, tl.py:544-553: the cells TLCell(n, r) for r in range(n // 2);
    the constructor of TLCell asserts 2r <= n *)
Definition jonesrep_cells (n : nat) : res (list (nat * nat)) :=
  mapM (fun r => _ <- assert_ (cell_ok n r) ;; Ok (n, r)) (seq 0 (n / 2)).
