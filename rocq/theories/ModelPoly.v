(** ModelPoly.v – model of /repo/peyl/poly.py and /repo/peyl/lpoly.py.

    Python ints are [Z] (unbounded on both sides).  [//] and [%] on ints floor
    towards minus infinity, as [Z.div] and [Z.modulo] do. *)
From Verif Require Import Base.
Local Open Scope Z_scope.

(** [coeffs[i] += c] on a list of ints; every caller passes an index in range
    (lemmas [add_index_ok], [mul_index_ok] in PolyTheory.v). *)
Definition addat (l : list Z) (i : nat) (c : Z) : list Z := upd l i (nth i l 0 + c).

(** [enumerate(l, start)] *)
Fixpoint enumerate {A} (start : Z) (l : list A) : list (Z * A) :=
  match l with
  | [] => []
  | x :: l' => (start, x) :: enumerate (start + 1) l'
  end.

(** poly.py:27-29 and lpoly.py:39-40: drop trailing zeros. *)
Fixpoint drop_zeros (l : list Z) : list Z :=
  match l with
  | [] => []
  | c :: l' => if c =? 0 then drop_zeros l' else l
  end.
Definition trim_right (l : list Z) : list Z := rev (drop_zeros (rev l)).

(** ** class LPoly *)

(** lpoly.py:30-31, the two fields. *)
Record lpoly := mkL { lval : Z; lcoeffs : list Z }.

(** lpoly.py:36-38: drop leading zeros, raising the valuation. *)
Fixpoint trim_left (val : Z) (l : list Z) : Z * list Z :=
  match l with
  | [] => (val, [])
  | c :: l' => if c =? 0 then trim_left (val + 1) l' else (val, l)
  end.

(** lpoly.py:33-47, the constructor [LPoly(val, coeffs)]. *)
Definition lpoly_make (val : Z) (coeffs : list Z) : lpoly :=
  let '(val', l) := trim_left val coeffs in
  match trim_right l with
  | [] => mkL 0 []
  | cs => mkL val' cs
  end.

(** lpoly.py:49-50, 52-53 *)
Definition lis_zero (p : lpoly) : bool := match lcoeffs p with [] => true | _ => false end.
Definition lis_unit (p : lpoly) : bool :=
  match lcoeffs p with [c] => (c =? 1) || (c =? -1) | _ => false end.

(** lpoly.py:71-76 *)
Definition ldegree (p : lpoly) : Z := lval p + Z.of_nat (length (lcoeffs p)) - 1.

(** lpoly.py:123-134, [self + other] for two LPolys. *)
Definition ladd (p q : lpoly) : lpoly :=
  let minval := Z.min (lval p) (lval q) in
  let maxpow := Z.max (lval p + Z.of_nat (length (lcoeffs p))) (lval q + Z.of_nat (length (lcoeffs q))) in
  let c0 := repeat 0 (Z.to_nat (maxpow - minval)) in
  let c1 := fold_left (fun acc '(i, c) => addat acc (Z.to_nat (lval p + i - minval)) c) (enumerate 0 (lcoeffs p)) c0 in
  let c2 := fold_left (fun acc '(i, c) => addat acc (Z.to_nat (lval q + i - minval)) c) (enumerate 0 (lcoeffs q)) c1 in
  lpoly_make minval c2.
(** lpoly.py:185-187 (and 121): an int as an LPoly. *)
Definition lint (c : Z) : lpoly := lpoly_make 0 [c].
(** lpoly.py:120-121 (158: [__radd__] is the same method) *)
Definition laddi (p : lpoly) (c : Z) : lpoly := ladd p (lint c).
(** lpoly.py:144-145 *)
Definition lneg (p : lpoly) : lpoly := lpoly_make (lval p) (map (fun c => - c) (lcoeffs p)).
(** lpoly.py:138-139 *)
Definition lsub (p q : lpoly) : lpoly := ladd p (lneg q).
Definition lsubi (p : lpoly) (c : Z) : lpoly := laddi p (- c).
(** lpoly.py:141-142, [int - LPoly] *)
Definition lrsubi (p : lpoly) (c : Z) : lpoly := laddi (lneg p) c.
(** lpoly.py:148-149 (159: [__rmul__] is the same method) *)
Definition lmuli (p : lpoly) (c : Z) : lpoly := lpoly_make (lval p) (map (fun d => d * c) (lcoeffs p)).
(** lpoly.py:151-153 and poly.py:94-96: the convolution loop. *)
Definition conv (a b : list Z) : list Z :=
  fold_left (fun acc '((i, c), (j, d)) => addat acc (Z.to_nat (i + j)) (c * d))
    (list_prod (enumerate 0 a) (enumerate 0 b))
    (repeat 0 (length a + length b)).
(** lpoly.py:150-154 *)
Definition lmul (p q : lpoly) : lpoly := lpoly_make (lval p + lval q) (conv (lcoeffs p) (lcoeffs q)).

(** lpoly.py:166-172: the power for an exponent n >= 0.  The recursion halves
    the exponent, so [fuel] = number of bits suffices; [lpow] passes that. *)
Fixpoint lpow_nat (fuel : nat) (p : lpoly) (n : Z) : res lpoly :=
  match fuel with
  | O => Err OutOfFuel
  | S fuel' =>
      if n =? 0 then Ok (lpoly_make 0 [1])
      else if n =? 1 then Ok p
      else
        sqrt <- lpow_nat fuel' p (n / 2) ;;
        Ok (if n mod 2 =? 0 then lmul sqrt sqrt else lmul (lmul sqrt sqrt) p)
  end.
Definition pow_fuel (n : Z) : nat := S (S (Z.to_nat (Z.log2 n))).
(** lpoly.py:161-172 *)
Definition lpow (p : lpoly) (n : Z) : res lpoly :=
  if n <? 0 then
    match lcoeffs p with
    | [c] => if (c =? 1) || (c =? -1)
             then lpow_nat (pow_fuel (- n)) (lpoly_make (- lval p) (lcoeffs p)) (- n)
             else Err ValueError
    | _ => Err ValueError
    end
  else lpow_nat (pow_fuel n) p n.

(** lpoly.py:177-182 *)
Definition lmap (f : Z -> Z) (p : lpoly) : lpoly := lpoly_make (lval p) (map f (lcoeffs p)).

(** lpoly.py:192-199 *)
Definition quantum_integer (n : Z) : lpoly :=
  if Z.abs n <=? 1 then lpoly_make 0 [n]
  else
    let sign := if n >=? 1 then 1 else -1 in
    lpoly_make (- Z.abs n + 1)
      (map (fun i => if (Z.of_nat i mod 2 =? 0)%Z then sign else 0) (seq 0 (Z.to_nat (2 * Z.abs n - 1)))).

(** Dataclass equality (lpoly.py:14, [eq=True]): componentwise. *)
Definition leqb (p q : lpoly) : bool :=
  (lval p =? lval q) && (if list_eq_dec Z.eq_dec (lcoeffs p) (lcoeffs q) then true else false).

(** ** class Poly: the coefficient tuple. *)
Notation poly := (list Z).

(** poly.py:25-31, the constructor [Poly( *args)]. *)
Definition poly_make (args : list Z) : poly := trim_right args.

(** poly.py:33-35 *)
Definition pdeg (p : poly) : Z := Z.of_nat (length p) - 1.

(** itertools.zip_longest(a, b, fillvalue=0) *)
Fixpoint zip_longest (a b : list Z) : list (Z * Z) :=
  match a, b with
  | [], _ => map (fun d => (0, d)) b
  | _, [] => map (fun c => (c, 0)) a
  | c :: a', d :: b' => (c, d) :: zip_longest a' b'
  end.
(** poly.py:79-81; an int operand is the one-entry coefficient list (not trimmed). *)
Definition padd (p q : list Z) : poly := poly_make (map (fun '(c, d) => c + d) (zip_longest p q)).
(** poly.py:83-85 *)
Definition psub (p q : list Z) : poly := poly_make (map (fun '(c, d) => c - d) (zip_longest p q)).
(** poly.py:87-88 *)
Definition pneg (p : poly) : poly := poly_make (map (fun c => - c) p).
(** poly.py:91-92 *)
Definition pmuli (p : poly) (c : Z) : poly := poly_make (map (fun d => d * c) p).
(** poly.py:93-97 *)
Definition pmul (p q : poly) : poly := poly_make (conv p q).

(** poly.py:102-111 *)
Fixpoint ppow_nat (fuel : nat) (p : poly) (n : Z) : res poly :=
  match fuel with
  | O => Err OutOfFuel
  | S fuel' =>
      if n =? 0 then Ok (poly_make [1])
      else if n =? 1 then Ok p
      else
        sqrt <- ppow_nat fuel' p (n / 2) ;;
        Ok (if n mod 2 =? 0 then pmul sqrt sqrt else pmul (pmul sqrt sqrt) p)
  end.
Definition ppow (p : poly) (n : Z) : res poly :=
  if n <? 0 then Err ValueError else ppow_nat (pow_fuel n) p n.

(** poly.py:129-136, the [while] of [__divmod__].  ([r != ()] compares a Poly
    with a tuple and is always true.) *)
Fixpoint divmod_loop (fuel : nat) (d q r : poly) : res (poly * poly) :=
  match fuel with
  | O => Err OutOfFuel
  | S fuel' =>
      if (length d <=? length r)%nat then
        let t := last r 0 / last d 0 in
        let remainder := last r 0 mod last d 0 in
        if negb (remainder =? 0) then Err ValueError
        else
          let t_deg := (length r - length d)%nat in
          let tt := poly_make (repeat 0 t_deg ++ [t]) in
          divmod_loop fuel' d (padd q tt) (psub r (pmul d tt))
      else Ok (q, r)
  end.
(** poly.py:115-138 *)
Definition pdivmod (n d : poly) : res (poly * poly) :=
  _ <- assert_ (negb (forallb (fun c => c =? 0) d)) ;;
  divmod_loop (S (length n)) d (poly_make []) n.
(** poly.py:37-38 *)
Definition pis_zero (p : poly) : bool := match p with [] => true | _ => false end.
(** poly.py:140-146 *)
Definition pdiv (n d : poly) : res poly :=
  '(quo, rem) <- pdivmod n d ;;
  if negb (pis_zero rem) then Err ValueError else Ok quo.

(** poly.py:148-168.  The [lru_cache] only memoises.  Recursion on proper
    divisors; [fuel] bounds its depth. *)
Fixpoint cyclotomic_fuel (fuel : nat) (n : nat) : res poly :=
  match fuel with
  | O => Err OutOfFuel
  | S fuel' =>
      foldM (fun p d =>
          c <- cyclotomic_fuel fuel' d ;;
          '(p', rem) <- pdivmod p c ;;
          _ <- assert_ (pis_zero rem) ;;
          Ok p')
        (filter (fun d => (n mod d =? 0)%nat) (seq 1 (n - 1)))
        (poly_make (-1 :: repeat 0 (n - 1) ++ [1]))
  end.
Definition cyclotomic (n : Z) : res poly :=
  if n <=? 0 then Err ValueError else cyclotomic_fuel (S (Z.to_nat n)) (Z.to_nat n).

(** poly.py:170-188 *)
Fixpoint cheb (n : nat) : poly :=
  match n with
  | O => poly_make [1]
  | S n' => match n' with
            | O => poly_make [0; 1]
            | S n'' => psub (pmul (poly_make [0; 2]) (cheb n')) (cheb n'')
            end
  end.
Definition chebyshevT (n : Z) : res poly :=
  if n <? 0 then Err ValueError else Ok (cheb (Z.to_nat n)).

(** poly.py:40-47, [evaluate] at an integer point; [sum] starts from 0. *)
Definition peval_int (p : poly) (x : Z) : Z :=
  fold_left (fun s '(i, c) => if c =? 0 then s else s + c * x ^ i) (enumerate 0 p) 0.
(** poly.py:40-47, [evaluate] at a Poly.  [sum] starts from the int 0 and
    [0 + Poly] ([Poly.__radd__]) adds a zero constant term; on the zero polynomial the
    result is the int 0, represented here by the zero Poly. *)
Definition peval_poly (p : poly) (x : poly) : res poly :=
  foldM (fun s '(i, c) =>
      if c =? 0 then Ok s
      else xi <- ppow x i ;; Ok (padd s (pmuli xi c)))
    (enumerate 0 p) [].

(** poly.py:190-211.  The assertion on line 210 is a generator object, hence
    always true.  [poly /= ...] on line 208 divides by a Poly. *)
Fixpoint minpolycos_fuel (fuel : nat) (n : nat) : res poly :=
  match fuel with
  | O => Err OutOfFuel
  | S fuel' =>
      let s := Nat.div n 2 in
      a <- chebyshevT (Z.of_nat s + 1) ;;
      b <- chebyshevT (if (n mod 2 =? 1)%nat then Z.of_nat s else Z.of_nat s - 1) ;;
      p <- foldM (fun p d =>
             m <- minpolycos_fuel fuel' d ;;
             e <- peval_poly m (poly_make [0; 2]) ;;
             pdiv p e)
           (filter (fun d => (n mod d =? 0)%nat) (seq 1 (n - 1)))
           (pmuli (psub a b) 2) ;;
      Ok (poly_make (map (fun '(i, c) => c / 2 ^ i) (enumerate 0 p)))
  end.
Definition minpolycos (n : nat) : res poly := minpolycos_fuel (S n) n.

(** lpoly.py:174-175, [LPoly / LPoly]. *)
Definition ldiv (p q : lpoly) : res lpoly :=
  c <- pdiv (poly_make (lcoeffs p)) (poly_make (lcoeffs q)) ;;
  Ok (lpoly_make (lval p - lval q) c).

(** ** Python numbers as they occur in matrices and morphisms: int or LPoly. *)
Inductive num := NI (c : Z) | NL (p : lpoly).
(** lpoly.py:184-190, [LPoly.coerce] *)
Definition coerce (x : num) : lpoly := match x with NI c => lint c | NL p => p end.
(** [x + y]: int + int, or one of LPoly.__add__/__radd__. *)
Definition nadd (x y : num) : num :=
  match x, y with
  | NI a, NI b => NI (a + b)
  | NI a, NL q => NL (laddi q a)
  | NL p, NI b => NL (laddi p b)
  | NL p, NL q => NL (ladd p q)
  end.
Definition nmul (x y : num) : num :=
  match x, y with
  | NI a, NI b => NI (a * b)
  | NI a, NL q => NL (lmuli q a)
  | NL p, NI b => NL (lmuli p b)
  | NL p, NL q => NL (lmul p q)
  end.
Definition nneg (x : num) : num := match x with NI a => NI (- a) | NL p => NL (lneg p) end.
Definition nsub (x y : num) : num :=
  match x, y with
  | NI a, NI b => NI (a - b)
  | NI a, NL q => NL (lrsubi q a)
  | NL p, NI b => NL (lsubi p b)
  | NL p, NL q => NL (lsub p q)
  end.
(** [x ** n] for an exponent n on an int base is only used with n >= 0. *)
(** lpoly.py:55-62, [evaluate] at an LPoly: a sum of [c * x**(i+val)] starting
    from the int 0. *)
Definition levaluate (p : lpoly) (x : lpoly) : res num :=
  foldM (fun s '(i, c) =>
      if c =? 0 then Ok s
      else xi <- lpow x (i + lval p) ;; Ok (nadd s (NL (lmuli xi c))))
    (enumerate 0 (lcoeffs p)) (NI 0).
(** [==]: an LPoly is never equal to an int (dataclass equality, lpoly.py:14). *)
Definition neqb (x y : num) : bool :=
  match x, y with
  | NI a, NI b => a =? b
  | NL p, NL q => leqb p q
  | _, _ => false
  end.
