(** ModelRep.v – model of the representations of /repo/peyl/jonesrep.py,
    lines 59-98 (RepBase without the polymat methods) and 215-276
    (JonesCellRep) .

    A representation object is the record of what its methods return: the
    attributes n and p, dimension() and artin_gens_invs().  functools.cache only
    wraps polymat methods and is not modelled here.  __repr__ is not modelled. *)
From Verif Require Import Base ModelPoly ModelMatrix ModelTL ModelTLMor ModelPerm ModelBraid.

(** jonesrep.py:59-74 *)
Record rep := mkRep {
  rep_n : nat;
  rep_p : Z;
  rep_dimension : res Z;
  rep_artin_gens_invs : res (list (mat num) * list (mat num)) }.

(** products, powers and the identity of matrices of Python numbers *)
Definition nmat_mul : mat num -> mat num -> res (mat num) := mat_mul (NI 0) nadd nmul.
Definition nmat_pow : mat num -> Z -> res (mat num) := mat_pow (NI 0) (NI 1) nadd nmul.
Definition nmat_identity : Z -> res (mat num) := mat_identity (NI 0) (NI 1).

(** jonesrep.py:76-78 *)
Definition rep_id (R : rep) : res (mat num) := d <- rep_dimension R ;; nmat_identity d.

(** the function [lambda x: x if isinstance(x, int) else x.map(lambda n: n % p)]
    of jonesrep.py:89, 273, 274; p is never 0 there *)
Definition nreduce (p : Z) (x : num) : num :=
  match x with NI c => NI c | NL l => NL (lmap (fun c => c mod p)%Z l) end.

(** jonesrep.py:84-91.  The list of powers is built before the product. *)
Definition rep_letter (gens invs : list (mat num)) (l : Z * Z) : res (mat num) :=
  let '(i, e) := l in
  if (0 <=? e)%Z then g <- pyget gens i ;; nmat_pow g e
  else h <- pyget invs i ;; nmat_pow h (Z.abs e).
Definition rep_evaluate_artin_word (R : rep) (word : list (Z * Z)) : res (mat num) :=
  '(gens, invs) <- rep_artin_gens_invs R ;;
  ms <- mapM (rep_letter gens invs) word ;;
  e <- rep_id R ;;
  product <- foldM nmat_mul ms e ;;
  Ok (if (rep_p R =? 0)%Z then product else mat_map (nreduce (rep_p R)) product).

(** jonesrep.py:93-98 for a normal form (GNF or DGNF with table [tb]) and for
    a permutation (permutations.py:408-409) *)
Definition rep_evaluate_nf {A} (tb : nat -> res (nftable A)) (R : rep) (b : nfobj) : res (mat num) :=
  w <- artin_word tb b ;; rep_evaluate_artin_word R w.
Definition perm_artin_word (w : list nat) : res (list (Z * Z)) :=
  s <- shortlex w ;; Ok (map (fun i => (Z.of_nat i, 1%Z)) s).
Definition rep_evaluate_perm (R : rep) (w : list nat) : res (mat num) :=
  w <- perm_artin_word w ;; rep_evaluate_artin_word R w.

(** jonesrep.py:243-249 *)
Definition jones_dimension (n r : nat) : res Z :=
  if r =? 0 then Ok 1%Z else Ok (Z.of_nat (comb n r) - Z.of_nat (comb n (r - 1)))%Z.
(** jonesrep.py:254-276; the entries of the cell matrices are LPolys *)
Definition jones_gens_invs (n r : nat) (p : Z) : res (list (mat num) * list (mat num)) :=
  '(gens, invs) <- cell_matrices n r ;;
  let gens := map (mat_map NL) gens in
  let invs := map (mat_map NL) invs in
  Ok (if (p =? 0)%Z then (gens, invs)
      else (map (mat_map (nreduce p)) gens, map (mat_map (nreduce p)) invs)).
(** jonesrep.py:227-236; r is a natural number here (a negative r is not modelled) *)
Definition jones_rep (n r : nat) (p : Z) : res rep :=
  _ <- assert_ (1 <=? n) ;;
  _ <- assert_ (2 * r <=? n) ;;
  _ <- assert_ (0 <=? p)%Z ;;
  Ok (mkRep n p (jones_dimension n r) (jones_gens_invs n r p)).
