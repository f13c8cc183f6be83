(** ModelNPar.v – model of /repo/peyl/noncrossing.py, of NParTable.create
    (braid.py:270-334) and of the DGNF parts of braid.py (lines 583-708, 732-743,
    763-775).

    An NPar is a record (n, inv).  Its validation method is called
    [__post__init__] (noncrossing.py:99), so it never runs: the constructor
    checks nothing.  Simplification: the entries of [inv] are naturals, as all
    of noncrossing.py produces; component elements given by the caller are
    arbitrary ints. *)
From Verif Require Import Base ModelTL ModelPerm ModelBraid.

(** noncrossing.py:22-29 *)
Definition catalan (n : nat) : nat := comb (2 * n) n / (n + 1).

(** noncrossing.py:31-41.  The two nested loops run through the elements of
    all components in order. *)
Fixpoint disjoint_loop (seen elems : list Z) : bool :=
  match elems with
  | [] => true
  | e :: elems' => if existsb (Z.eqb e) seen then false else disjoint_loop (e :: seen) elems'
  end.
Definition are_pairwise_disjoint (components : list (list Z)) : bool := disjoint_loop [] (concat components).

(** noncrossing.py:43-65 *)
Definition bkl_gen_to_artin_word (s t : nat) : list (Z * Z) :=
  if s =? t then []
  else
    let '(s, t) := if t <? s then (t, s) else (s, t) in
    map (fun i => (Z.of_nat i, 1%Z)) (rev (seq (s + 1) (t - 1 - s)))
    ++ [(Z.of_nat s, 1%Z)]
    ++ map (fun i => (Z.of_nat i, (-1)%Z)) (seq (s + 1) (t - (s + 1))).

(** noncrossing.py:67-90.  [len(comp) == len(set(comp))] says that no element
    is repeated. *)
Fixpoint no_repeat (l : list nat) : bool :=
  match l with
  | [] => true
  | x :: l' => negb (existsb (Nat.eqb x) l') && no_repeat l'
  end.
Definition npar_component_to_artin_word (component : list nat) : res (list (Z * Z)) :=
  let comp := sorted Nat.leb component in
  _ <- assert_ (no_repeat comp) ;;
  ws <- mapM (fun i => a <- get comp i ;; b <- get comp (i + 1) ;; Ok (bkl_gen_to_artin_word a b))
    (rev (seq 0 (length comp - 1))) ;;
  Ok (concat ws).

(** noncrossing.py:93-102 *)
Record npar := NPar { np_n : nat; np_inv : list nat }.
Definition npar_eqb (p q : npar) : bool := (np_n p =? np_n q) && list_eqb (np_inv p) (np_inv q).
(** the constructor as called by a user, on arbitrary arguments *)
Definition mk_npar (n : Z) (inv : list Z) : res (Z * list Z) := Ok (n, inv).

(** noncrossing.py:107-115 *)
Definition finest (n : nat) : npar :=
  NPar n (map (fun i => if i mod 2 =? 0 then i + 1 else i - 1) (seq 0 (2 * n))).
(** noncrossing.py:117-120; [(i-1) % (2*n)] is non-negative in Python. *)
Definition coarsest (n : nat) : npar :=
  NPar n (map (fun i => if i mod 2 =? 1 then (i + 1) mod (2 * n) else (i + 2 * n - 1) mod (2 * n)) (seq 0 (2 * n))).
(** noncrossing.py:122-126 *)
Definition all_of_size (n : nat) : res (list npar) :=
  ss <- generate_sequences (2 * Z.of_nat n) ;; Ok (map (NPar n) ss).

(** noncrossing.py:146-151, the inner loop for one sorted component *)
Definition link_component (inv comp : list nat) : res (list nat) :=
  foldM (fun inv i =>
      a <- get comp i ;;
      b <- get comp ((i + 1) mod length comp) ;;
      inv <- set_ inv (2 * a + 1) (2 * b) ;;
      set_ inv (2 * b) (2 * a + 1))
    (seq 0 (length comp)) inv.
(** noncrossing.py:128-156.  [components] is a list (or tuple) of iterables; a
    one-shot iterator would be exhausted by the first check. *)
Definition from_components (n : nat) (components : list (list Z)) : res npar :=
  if negb (are_pairwise_disjoint components) then Err ValueError
  else if negb (forallb (forallb (fun x => (0 <=? x) && (x <? Z.of_nat n))%Z) components) then Err ValueError
  else
    inv <- foldM link_component (map (fun c => sorted Nat.leb (map Z.to_nat c)) components) (np_inv (finest n)) ;;
    c <- is_cm inv ;;
    if negb c then Err ValueError else Ok (NPar n inv).

(** noncrossing.py:158-170 *)
Definition from_permutation (perm : list nat) : res npar :=
  b <- is_parallel_descending_cycles perm ;;
  if negb b then Err ValueError
  else cycles <- disjoint_cycles perm ;; from_components (length perm) (map (map Z.of_nat) cycles).

(** noncrossing.py:172-184 *)
Definition to_permutation (p : npar) : res (list nat) :=
  foldM (fun word i => x <- get (np_inv p) (2 * i) ;; set_ word i (x / 2)) (seq 0 (np_n p)) (repeat 0 (np_n p)).

(** noncrossing.py:200-207, the [while True] *)
Fixpoint group_loop (inv : list nat) (i : nat) (fuel j : nat) (group : list nat) (seen : list bool)
    : res (list nat * list bool) :=
  match fuel with
  | 0 => Err OutOfFuel
  | S fuel' =>
      seen <- set_ seen j true ;;
      x <- get inv (2 * j + 1) ;;
      if i =? x / 2 then Ok (group ++ [j], seen) else group_loop inv i fuel' (x / 2) (group ++ [j]) seen
  end.
(** noncrossing.py:186-211 *)
Definition components (p : npar) : res (list (list nat)) :=
  '(cs, _) <- foldM (fun '(cs, seen) i =>
      v <- get seen i ;;
      if (v : bool) then Ok (cs, seen)
      else
        '(group, seen') <- group_loop (np_inv p) i (np_n p) i [] seen ;;
        Ok (cs ++ [group], seen'))
    (seq 0 (np_n p)) ([], repeat false (np_n p)) ;;
  Ok cs.

(** [itertools.combinations(l, 2)] *)
Fixpoint combinations2 (l : list nat) : list (nat * nat) :=
  match l with
  | [] => []
  | x :: l' => map (fun y => (x, y)) l' ++ combinations2 l'
  end.
(** noncrossing.py:213-220 *)
Definition edges (p : npar) : res (list (nat * nat)) :=
  cs <- components p ;; Ok (flat_map combinations2 cs).

(** noncrossing.py:222-232 and 234-242; indices and results modulo 2n, taken
    non-negative as in Python. *)
Definition left_complement (p : npar) : res npar :=
  let m := 2 * np_n p in
  inv <- mapM (fun i => x <- get (np_inv p) ((i + 1) mod m) ;; Ok ((x + m - 1) mod m)) (seq 0 m) ;;
  Ok (NPar (np_n p) inv).
Definition right_complement (p : npar) : res npar :=
  let m := 2 * np_n p in
  inv <- mapM (fun i => x <- get (np_inv p) ((i + m - 1) mod m) ;; Ok ((x + 1) mod m)) (seq 0 m) ;;
  Ok (NPar (np_n p) inv).

(** noncrossing.py:247-256 *)
Definition npar_artin_word (p : npar) : res (list (Z * Z)) :=
  cs <- components p ;; ws <- mapM npar_component_to_artin_word cs ;; Ok (concat ws).

(** ** NParTable.create (braid.py:270-334) *)
Definition edge_eqb (e f : nat * nat) : bool := (fst e =? fst f) && (snd e =? snd f).
(** [set(w.right_complement().edges()) & set(z.edges())] *)
Definition compatible_edges (w z : npar) : res (list (nat * nat)) :=
  rc <- right_complement w ;;
  es <- edges rc ;;
  fs <- edges z ;;
  Ok (filter (fun f => existsb (edge_eqb f) es) fs).
(** [set.pop()] returns an arbitrary element: [pick] may depend on the pair
    (x, y) being filled in and on the number of pops so far. *)
Definition epicker := npar -> npar -> nat -> list (nat * nat) -> nat * nat.
Definition epicker_ok (pick : epicker) : Prop := forall x y k l, l <> [] -> In (pick x y k l) l.
(** braid.py:319-326 *)
Fixpoint npar_renorm_loop (pick : epicker) (n : nat) (x y : npar) (fuel k : nat) (w z : npar) : res (npar * npar) :=
  match fuel with
  | 0 => Err OutOfFuel
  | S fuel' =>
      es <- compatible_edges w z ;;
      match es with
      | [] => Ok (w, z)
      | _ =>
          let e := pick x y k es in
          w_perm <- to_permutation w ;;
          edge <- from_components n [[Z.of_nat (fst e); Z.of_nat (snd e)]] ;;
          edge_perm <- to_permutation edge ;;
          z_perm <- to_permutation z ;;
          w_perm <- compose w_perm edge_perm ;;
          z_perm <- compose edge_perm z_perm ;;
          w' <- from_permutation w_perm ;;
          z' <- from_permutation z_perm ;;
          npar_renorm_loop pick n x y fuel' (S k) w' z'
      end
  end.
Definition npar_renorm (pick : epicker) (n : nat) (x y : npar) : res (npar * npar) :=
  npar_renorm_loop pick n x y (S n) 0 x y.

(** The tables are filled by [table[index[x]][index[y]] = ...] for x, y running
    through [npars]; since [index[npars[i]] = i] this is the same as building
    the rows in order.  The second component is [bkl_gens], a dict. *)
Definition npar_table_body (pick : epicker) (n : nat) : res (nftable npar * list ((nat * nat) * Z)) :=
  let order := catalan n in
    npars <- all_of_size n ;;
    let idx x := k <- dict_index npar_eqb npars x ;; Ok (Z.of_nat k) in
    gens <- mapM (fun i => g <- from_components n [[Z.of_nat i; Z.of_nat (i + 1)]] ;; idx g) (seq 0 (n - 1)) ;;
    bkl <- mapM (fun '(i, j) => g <- from_components n [[Z.of_nat i; Z.of_nat j]] ;; k <- idx g ;; Ok ((i, j), k))
             (combinations2 (seq 0 n)) ;;
    id <- idx (finest n) ;;
    D <- idx (coarsest n) ;;
    lcs <- mapM (fun p => q <- left_complement p ;; idx q) npars ;;
    rcs <- mapM (fun p => q <- right_complement p ;; idx q) npars ;;
    words <- mapM npar_artin_word npars ;;
    let ident := map Z.of_nat (seq 0 order) in
    tl0 <- set_ (repeat [] n) 0 ident ;;
    tr0 <- set_ (repeat [] n) 0 ident ;;
    l1 <- mapM (fun p => q <- left_complement p ;; q <- left_complement q ;; idx q) npars ;;
    tl1 <- set_ tl0 1 l1 ;;
    r1 <- mapM (fun p => q <- right_complement p ;; q <- right_complement q ;; idx q) npars ;;
    tr1 <- set_ tr0 1 r1 ;;
    '(tls, trs) <- foldM (fun '(tls, trs) i =>
        pl <- get tls (i - 1) ;;
        row <- mapM (fun x => y <- get pl x ;; one <- get tls 1 ;; pyget one y) (seq 0 order) ;;
        tls <- set_ tls i row ;;
        pr <- get trs (i - 1) ;;
        row <- mapM (fun x => y <- get pr x ;; one <- get trs 1 ;; pyget one y) (seq 0 order) ;;
        trs <- set_ trs i row ;;
        Ok (tls, trs)) (seq 2 (n - 2)) (tl1, tr1) ;;
    rows <- mapM (fun x => mapM (fun y => npar_renorm pick n x y) npars) npars ;;
    renorm <- mapM (mapM (fun '(w, z) => i <- idx w ;; j <- idx z ;; Ok (i, j))) rows ;;
    let isnorm := map (fun '(x, row) => map (fun '(y, (w, z)) => npar_eqb w x && npar_eqb z y)
                                            (combine npars row)) (combine npars rows) in
    follows <- mapM (fun row =>
        l <- mapM (fun '(y, b) => i <- idx y ;;
                     Ok (if (b : bool) && negb (i =? id)%Z && negb (i =? D)%Z then [i] else []))
               (combine npars row) ;;
        Ok (concat l)) isnorm ;;
    Ok ({| t_n := n; t_order := order; t_divs := npars; t_eqb := npar_eqb;
           t_id := id; t_D := D; t_gens := gens; t_lc := lcs; t_rc := rcs;
           t_tau_order := Z.of_nat n; t_tau_left := tls; t_tau_right := trs;
           t_renorm := renorm; t_isnorm := isnorm; t_follows := follows; t_word := words |}, bkl).
(** braid.py:279-283: the size guard *)
Definition npar_table (pick : epicker) (n : nat) : res (nftable npar * list ((nat * nat) * Z)) :=
  if (5000 <=? Z.of_nat (catalan n))%Z then Err ValueError else npar_table_body pick n.

(** ** DGNF (braid.py:606-708).  Its methods inherited from NFBase, and
    [from_artin_word], are those of ModelBraid at the table [dtb tab], where
    [tab n] is the result of NParTable.create(n), that is [npar_table pick n]
    for some behaviour of set.pop. *)
Definition nptab := nat -> res (nftable npar * list ((nat * nat) * Z)).
Definition dtb (tab : nptab) (n : nat) : res (nftable npar) := r <- tab n ;; Ok (fst r).
Definition bkl_table (tab : nptab) (n : nat) : res (list ((nat * nat) * Z)) := r <- tab n ;; Ok (snd r).

(** a dict with pairs of naturals as keys: last assignment to a key wins *)
Fixpoint edge_get {A} (d : list ((nat * nat) * A)) (e : nat * nat) : res A :=
  match d with
  | [] => Err KeyError
  | (f, v) :: d' => if edge_eqb e f then Ok v else edge_get d' e
  end.
Fixpoint edge_set {A} (d : list ((nat * nat) * A)) (e : nat * nat) (v : A) : list ((nat * nat) * A) :=
  match d with
  | [] => [(e, v)]
  | (f, u) :: d' => if edge_eqb e f then (f, v) :: d' else (f, u) :: edge_set d' e v
  end.

Section DGNF.
Variable tab : nptab.
Notation tb := (dtb tab).

(** braid.py:654-659 and 636-638 *)
Definition dgnf_from_npar_seq (n : nat) (npars : list npar) : res nfobj := from_div_seq tb np_n n npars.
Definition dgnf_from_npar (p : npar) : res nfobj := dgnf_from_npar_seq (np_n p) [p].

(** braid.py:640-652: the dict comprehension over i, j in range(n) *)
Definition dgnf_bkl_gens (n : nat) : res (list ((nat * nat) * nfobj)) :=
  id <- nf_identity tb n ;;
  bkl <- bkl_table tab n ;;
  mapM (fun e : nat * nat =>
      x <- (if fst e =? snd e then Ok id
            else k <- edge_get bkl (Nat.min (fst e) (snd e), Nat.max (fst e) (snd e)) ;; mk tb n 0 [k]) ;;
      Ok (e, x))
    (list_prod (seq 0 n) (seq 0 n)).

(** braid.py:732-743 (BraidGroup.bkl_gens): three dicts merged *)
Definition bg_bkl_gens (n : nat) : res (list ((nat * nat) * nfobj)) :=
  bkl <- bkl_table tab n ;;
  d1 <- mapM (fun '(e, k) => x <- mk tb n 0 [k] ;; Ok (e, x)) bkl ;;
  d2 <- mapM (fun '(e, k) => x <- mk tb n 0 [k] ;; Ok ((snd e, fst e), x)) bkl ;;
  d3 <- mapM (fun i => x <- nf_identity tb n ;; Ok ((i, i), x)) (seq 0 n) ;;
  Ok (fold_left (fun d '(e, x) => edge_set d e x) (d1 ++ d2 ++ d3) []).

(** braid.py:763-775 (BraidGroup.from_npar) *)
Definition bg_from_npar (n : nat) (p : npar) : res nfobj :=
  if negb (np_n p =? n) then Err ValueError
  else
    t <- tb n ;;
    k <- index t p ;;
    if (k =? t_id t)%Z then mk tb n 0 []
    else if (k =? t_D t)%Z then mk tb n 1 []
    else mk tb n 0 [k].

(** ** Conversions.  [gt n] is the result of PermTable.create(n). *)
Variable gt : nat -> res (nftable (list nat)).

(** braid.py:694-699 and 701-708 *)
Definition factors_to_GNF (n : nat) : res (list nfobj) :=
  t <- tb n ;;
  mapM (fun p => x <- dgnf_from_npar p ;; w <- artin_word tb x ;; from_artin_word gt n w) (t_divs t).
Definition to_GNF (b : nfobj) : res nfobj :=
  t <- tb (o_n b) ;;
  gnfs <- factors_to_GNF (o_n b) ;;
  fs <- mapM (pyget gnfs) (o_factors b) ;;
  id <- nf_identity gt (o_n b) ;;
  result <- foldM (nf_mul gt) fs id ;;
  if (o_pow b =? 0)%Z then Ok result
  else d <- pyget gnfs (t_D t) ;; dp <- nf_pow gt d (o_pow b) ;; nf_mul gt dp result.

(** braid.py:585-589 and 591-598 *)
Definition factors_to_DGNF (n : nat) : res (list nfobj) :=
  t <- gt n ;;
  mapM (fun p => x <- gnf_from_perm gt p ;; w <- artin_word gt x ;; from_artin_word tb n w) (t_divs t).
Definition to_DGNF (b : nfobj) : res nfobj :=
  t <- gt (o_n b) ;;
  dgnfs <- factors_to_DGNF (o_n b) ;;
  fs <- mapM (pyget dgnfs) (o_factors b) ;;
  id <- nf_identity tb (o_n b) ;;
  result <- foldM (nf_mul tb) fs id ;;
  if (o_pow b =? 0)%Z then Ok result
  else d <- pyget dgnfs (t_D t) ;; dp <- nf_pow tb d (o_pow b) ;; nf_mul tb dp result.
End DGNF.
