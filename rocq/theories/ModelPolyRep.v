(** ModelPolyRep.v – model of the polymat methods of RepBase
    (/repo/peyl/jonesrep.py:80-82 and 100-212) and of JonesSummand and the
    evaluation functions of /repo/peyl/braidsearch.py:58-223.

    The class argument [cls] (GNF or DGNF) is its table function [tb]; all braids
    of one call are of that class, so the class comparison of jonesrep.py:173 is
    not modelled.  functools.cache is not modelled: the cached functions are pure. *)
From Verif Require Import Base ModelPerm ModelBraid ModelPoly ModelMatrix ModelTL ModelTLMor ModelRep ModelPolymat.
Local Open Scope nat_scope.

(** the array that from_matrix returned; None has no shape: later calls would
    raise AttributeError, not represented in [exn] *)
Definition some_array (r : res (option parr)) : res parr :=
  a <- r ;; match a with Some A => Ok A | None => Err NotModelled end.
(** [product % p] when p != 0 *)
Definition reduce_arr (p : Z) (A : parr) : res parr := if (p =? 0)%Z then Ok A else arr_mod A p.

(** jonesrep.py:80-82 and braidsearch.py:81-83 *)
Definition polymat_dtype (p : Z) : dtype := if (0 <? p)%Z then I32 else I64.
(** jonesrep.py:100-102 and braidsearch.py:90-93: np.identity(d, dtype)[..., None] *)
Definition np_identity (d : Z) (t : dtype) : res parr :=
  if (d <? 0)%Z then Err ValueError
  else Ok (mkA [] (Z.to_nat d) (Z.to_nat d) 1 t [btab (Z.to_nat d) (Z.to_nat d) 1 (fun i j _ => if i =? j then 1%Z else 0%Z)]).
Definition polymat_id (R : rep) : res parr := d <- rep_dimension R ;; np_identity d (polymat_dtype (rep_p R)).
(** jonesrep.py:104-110 and braidsearch.py:107-113 *)
Definition polymat_mul (p : Z) (left right : parr) : res parr :=
  product <- mul left right None ;;
  product <- reduce_arr p product ;;
  projectivise product.
(** jonesrep.py:112-125 *)
Definition polymat_artin_gens_invs (R : rep) : res (parr * parr) :=
  '(gens, invs) <- rep_artin_gens_invs R ;;
  gs <- mapM (fun x => some_array (from_matrix x false (polymat_dtype (rep_p R)))) gens ;;
  matgens <- pack gs ;;
  hs <- mapM (fun x => some_array (from_matrix x false (polymat_dtype (rep_p R)))) invs ;;
  matinvs <- pack hs ;;
  matgens <- reduce_arr (rep_p R) matgens ;;
  matinvs <- reduce_arr (rep_p R) matinvs ;;
  g <- projectivise matgens ;;
  h <- projectivise matinvs ;;
  Ok (g, h).
(** jonesrep.py:142-152 *)
Definition polymat_evaluate_artin_word (R : rep) (word : list (Z * Z)) : res parr :=
  '(gens, invs) <- polymat_artin_gens_invs R ;;
  e <- polymat_id R ;;
  product <- foldM (fun product '(i, e) =>
      foldM (fun product _ =>
          x <- arr_item (if (0 <=? e)%Z then gens else invs) i ;;
          product <- mul product x None ;;
          reduce_arr (rep_p R) product)
        (seq 0 (Z.abs_nat e)) product)
    word e ;;
  projectivise product.

Section Cls.
Context {A : Type}.
Variable tb : nat -> res (nftable A).
(** jonesrep.py:127-130 *)
Definition polymat_braid_factor (R : rep) (factor : Z) : res parr :=
  t <- tb (rep_n R) ;;
  w <- pyget (t_word t) factor ;;
  m <- rep_evaluate_artin_word R w ;;
  a <- some_array (from_matrix m true I64) ;;
  projectivise a.
(** jonesrep.py:132-140 *)
Definition polymat_delta_power (R : rep) (power : Z) : res parr :=
  t <- tb (rep_n R) ;;
  _ <- assert_ ((0 <=? power) && (power <? t_tau_order t))%Z ;;
  w <- pyget (t_word t) (t_D t) ;;
  m <- rep_evaluate_artin_word R w ;;
  m <- nmat_pow m power ;;
  a <- some_array (from_matrix m true I64) ;;
  projectivise a.
(** one step [result = polymat_mul(result, pack([...]))] of jonesrep.py:178-180
    and 208-210; [col] are the i-th factors *)
Definition polymat_step (R : rep) (result : parr) (col : list Z) : res parr :=
  fs <- mapM (polymat_braid_factor R) col ;;
  images <- pack fs ;;
  polymat_mul (rep_p R) result images.
(** jonesrep.py:166-182 *)
Definition polymat_evaluate_braids_of_same_length (R : rep) (braids : list nfobj) : res parr :=
  b0 <- get braids 0 ;;
  let len := length (o_factors b0) in
  _ <- assert_ (forallb (fun b => length (o_factors b) =? len) braids) ;;
  t <- tb (rep_n R) ;;
  ds <- mapM (fun b => polymat_delta_power R (o_pow b mod t_tau_order t)%Z) braids ;;
  result <- pack ds ;;
  foldM (fun result i =>
      col <- mapM (fun b => get (o_factors b) i) braids ;;
      polymat_step R result col)
    (seq 0 len) result.
(** jonesrep.py:161-163 *)
Definition polymat_evaluate_braid (R : rep) (b : nfobj) : res parr :=
  r <- polymat_evaluate_braids_of_same_length R [b] ;; arr_item r 0.
(** jonesrep.py:185-212 *)
Definition polymat_evaluate_integers (R : rep) (sequences : list (list Z)) : res parr :=
  s0 <- get sequences 0 ;;
  let len := length s0 in
  _ <- assert_ (forallb (fun s => length s =? len) sequences) ;;
  t <- tb (rep_n R) ;;
  _ <- assert_ (forallb (forallb (fun x => (0 <=? x) && (x <? Z.of_nat (t_order t)))%Z) sequences) ;;
  f <- polymat_braid_factor R (t_id t) ;;
  result <- pack [f] ;;
  foldM (fun result i =>
      col <- mapM (fun s => get s i) sequences ;;
      polymat_step R result col)
    (seq 0 len) result.
End Cls.

(** ** JonesSummand (braidsearch.py:58-113) *)
Record jsum := mkJS { js_n : nat; js_r : nat; js_p : Z }.
(** braidsearch.py:68-71; a negative r is not modelled *)
Definition jones_summand (n r : nat) (p : Z) : res jsum :=
  _ <- assert_ (1 <=? n) ;; _ <- assert_ (2 * r <=? n) ;; _ <- assert_ (0 <=? p)%Z ;; Ok (mkJS n r p).
(** math.comb(n, k) for a natural n and any int k *)
Definition math_comb (n : nat) (k : Z) : res Z := if (k <? 0)%Z then Err ValueError else Ok (Z.of_nat (comb n (Z.to_nat k))).
(** braidsearch.py:86-88 *)
Definition js_dimension (S : jsum) : res Z :=
  a <- math_comb (js_n S) (Z.of_nat (js_r S)) ;; b <- math_comb (js_n S) (Z.of_nat (js_r S) - 1) ;; Ok (a - b)%Z.
Definition js_id (S : jsum) : res parr := d <- js_dimension S ;; np_identity d (polymat_dtype (js_p S)).
(** braidsearch.py:95-105 *)
Definition js_gens_invs (S : jsum) : res (parr * parr) :=
  '(gens, invs) <- cell_matrices (js_n S) (js_r S) ;;
  gs <- mapM (fun x => some_array (from_matrix (mat_map NL x) false (polymat_dtype (js_p S)))) gens ;;
  g <- pack gs ;;
  matgens <- projectivise g ;;
  hs <- mapM (fun x => some_array (from_matrix (mat_map NL x) true (polymat_dtype (js_p S)))) invs ;;
  h <- pack hs ;;
  matinvs <- projectivise h ;;
  Ok (matgens, matinvs).
Definition js_mul (S : jsum) : parr -> parr -> res parr := polymat_mul (js_p S).

(** np.equal(A, B).all() for two matrices without prefix: the degree axis is
    broadcast when it is 1 in one of them *)
Definition equal_all (A B : parr) : res bool :=
  if (aI A =? aI B) && (aJ A =? aJ B) && ((aD A =? aD B) || (aD A =? 1) || (aD B =? 1)) then
    let D := if aD A =? 1 then aD B else aD A in
    Ok (forallb (fun i => forallb (fun j => forallb (fun d =>
        Z.eqb (bget (aJ A) (aD A) (block A []) i j (if aD A =? 1 then 0 else d))
              (bget (aJ B) (aD B) (block B []) i j (if aD B =? 1 then 0 else d)))
      (seq 0 D)) (seq 0 (aJ A))) (seq 0 (aI A)))
  else Err ValueError.
(** braidsearch.py:131-145.  The dict {perm: image} is the list of its items. *)
Definition table_lookup (t : list (list nat * parr)) (x : list nat) : res parr :=
  match find (fun kv => list_eqb (fst kv) x) t with Some kv => Ok (snd kv) | None => Err KeyError end.
Definition symmetric_entry (S : jsum) (gens eye : parr) (x : list nat) : res parr :=
  s <- shortlex x ;;
  gs <- mapM (fun i => arr_item gens (Z.of_nat i)) s ;;
  r <- foldM (js_mul S) gs eye ;;
  projectivise r.
Definition symmetric_table (S : jsum) : res (list (list nat * parr)) :=
  '(gens, _) <- js_gens_invs S ;;
  eye <- js_id S ;;
  table <- mapM (fun x => a <- symmetric_entry S gens eye x ;; Ok (x, a)) (elements (js_n S)) ;;
  d <- table_lookup table (longest_element (js_n S)) ;;
  d2 <- js_mul S d d ;;
  ok <- equal_all d2 eye ;;
  _ <- assert_ ok ;;
  Ok table.

Section GNF.
Variable tb : nat -> res (nftable (list nat)).
(** braidsearch.py:148-158 *)
Definition js_evaluate_braid_factors (S : jsum) (b : nfobj) : res parr :=
  '(p, fs) <- canonical_decomposition tb b ;;
  table <- symmetric_table S ;;
  eye <- js_id S ;;
  start <- (if (p mod 2 =? 0)%Z then Ok eye else table_lookup table (longest_element (js_n S))) ;;
  ms <- mapM (table_lookup table) fs ;;
  r <- foldM (js_mul S) ms start ;;
  projectivise r.
(** braidsearch.py:161-180 and 183-203: the list of the images of all prefixes *)
Definition js_evaluate_prefixes (S : jsum) (braids : list nfobj) : res (list parr) :=
  b0 <- get braids 0 ;;
  let len := length (o_factors b0) in
  _ <- assert_ (forallb (fun b => length (o_factors b) =? len) braids) ;;
  factors <- mapM (canonical_factors tb) braids ;;
  table <- symmetric_table S ;;
  eye <- js_id S ;;
  anti <- table_lookup table (longest_element (js_n S)) ;;
  images <- pack (map (fun b => if (o_pow b mod 2 =? 0)%Z then eye else anti) braids) ;;
  foldM (fun acc l =>
      ps <- mapM (fun f => x <- get f l ;; table_lookup table x) factors ;;
      perm_images <- pack ps ;;
      r <- js_mul S (last acc images) perm_images ;;
      Ok (acc ++ [r]))
    (seq 0 len) [images].
Definition js_evaluate_same_length (S : jsum) (braids : list nfobj) : res parr :=
  l <- js_evaluate_prefixes S braids ;; match rev l with x :: _ => Ok x | [] => Err IndexError end.
(** braidsearch.py:206-223.  indices_by_length is the dict {length: indices} in
    insertion order; [a[i]] of a batch is arr_item. *)
Fixpoint group_add (l i : nat) (g : list (nat * list nat)) : nat * list (nat * list nat) :=
  match g with
  | [] => (0, [(l, [i])])
  | (k, is) :: g' => if k =? l then (length is, (k, is ++ [i]) :: g')
                     else let '(loc, g2) := group_add l i g' in (loc, (k, is) :: g2)
  end.
Definition js_evaluate_braids (S : jsum) (braids : list nfobj) : res (list parr) :=
  let '(groups, locs) := fold_left (fun '(g, locs) '(i, b) =>
      let l := length (o_factors b) in
      let '(loc, g') := group_add l i g in (g', locs ++ [(l, loc)]))
    (combine (seq 0 (length braids)) braids) ([], []) in
  by_length <- mapM (fun '(l, is) =>
      bs <- mapM (get braids) is ;; a <- js_evaluate_same_length S bs ;; Ok (l, a)) groups ;;
  mapM (fun '(l, i) =>
      match find (fun kv => fst kv =? l) by_length with
      | Some kv => arr_item (snd kv) (Z.of_nat i)
      | None => Err KeyError
      end) locs.
End GNF.
