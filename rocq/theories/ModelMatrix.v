(** ModelMatrix.v – model of /repo/peyl/matrix.py.

    The entries are Python numbers; the model is parametric in the type of
    entries and in the operations [+], [*], [-] and the literals 0 and 1, which
    in the code are ints.  It is used with [Z] (int matrices) and with
    [ModelPoly.num] (matrices whose entries are ints and LPolys in any mix). *)
From Verif Require Import Base.

(** matrix.py:46-48.  nrows and ncols are non-negative once constructed. *)
Record mat (R : Type) := mkM { mrows : nat; mcols : nat; mdata : list R }.
Arguments mkM {R}. Arguments mrows {R}. Arguments mcols {R}. Arguments mdata {R}.

(** matrix.py:50-56, the constructor (the tuple test is a typing matter). *)
Definition mat_make {R} (nrows ncols : Z) (data : list R) : res (mat R) :=
  if negb ((0 <=? nrows) && (0 <=? ncols))%Z then Err ValueError
  else if negb (nrows * ncols =? Z.of_nat (length data))%Z then Err ValueError
  else Ok (mkM (Z.to_nat nrows) (Z.to_nat ncols) data).

(** matrix.py:61-71.  [rows[0]] raises IndexError for an empty list. *)
Definition mat_from_rows {R} (rows : list (list R)) : res (mat R) :=
  row0 <- get rows 0 ;;
  _ <- assert_ (forallb (fun row => length row =? length row0) rows) ;;
  mat_make (Z.of_nat (length rows)) (Z.of_nat (length row0)) (concat rows).

(** the index pairs of [for i in range(a) for j in range(b)] *)
Definition pairs (a b : nat) : list (nat * nat) := list_prod (seq 0 a) (seq 0 b).

Section Ops.
Context {R : Type} (O I : R) (radd rmul rsub : R -> R -> R) (reqb : R -> R -> bool).

(** matrix.py:73-79; a negative size makes the constructor raise. *)
Definition mat_scalar (size : Z) (x : R) : res (mat R) :=
  mat_make size size (map (fun '(i, j) => if i =? j then x else O) (pairs (Z.to_nat size) (Z.to_nat size))).
Definition mat_identity (size : Z) : res (mat R) := mat_scalar size I.
(** matrix.py:81-90 *)
Definition mat_zero (nrows ncols : Z) : res (mat R) := mat_make nrows ncols (repeat O (Z.to_nat (nrows * ncols))).

(** matrix.py:141-161: [M[i, j]] *)
Definition mat_get (m : mat R) (i j : Z) : res R :=
  if negb ((0 <=? i) && (i <? Z.of_nat (mrows m)) && (0 <=? j) && (j <? Z.of_nat (mcols m)))%Z then Err IndexError
  else get (mdata m) (mcols m * Z.to_nat i + Z.to_nat j).

(** matrix.py:115-122: the bounds test compares the row with [ncols]. *)
Definition mat_row (m : mat R) (row : Z) : res (mat R) :=
  if negb ((0 <=? row) && (row <? Z.of_nat (mcols m)))%Z then Err IndexError
  else
    d <- mapM (fun j => mat_get m row (Z.of_nat j)) (seq 0 (mcols m)) ;;
    mat_make 1 (Z.of_nat (mcols m)) d.
(** matrix.py:124-131 *)
Definition mat_column (m : mat R) (col : Z) : res (mat R) :=
  if negb ((0 <=? col) && (col <? Z.of_nat (mcols m)))%Z then Err IndexError
  else
    d <- mapM (fun j => mat_get m (Z.of_nat j) col) (seq 0 (mrows m)) ;;
    mat_make (Z.of_nat (mrows m)) 1 d.
(** matrix.py:133-139: slices of the data. *)
Definition mat_rows (m : mat R) : list (list R) :=
  map (fun i => firstn (mcols m) (skipn (mcols m * i) (mdata m))) (seq 0 (mrows m)).

(** matrix.py:169-170, 206-208: multiplication by an int (or scalar) *)
Definition mat_scale (m : mat R) (x : R) : mat R := mkM (mrows m) (mcols m) (map (fun y => rmul y x) (mdata m)).

(** [newdata[p] += t] *)
Definition accum (l : list R) (p : nat) (t : R) : list R := upd l p (radd (nth p l O) t).
(** matrix.py:172-182: the triple loop.  All indices are in range for data of
    the right length ([mat_index_ok] in MatrixTheory.v). *)
Definition mat_mul (a b : mat R) : res (mat R) :=
  if negb (mcols a =? mrows b) then Err ValueError
  else
    let newdata :=
      fold_left (fun acc i =>
        fold_left (fun acc j =>
          fold_left (fun acc k =>
            accum acc (mcols b * i + j) (rmul (nth (mcols a * i + k) (mdata a) O) (nth (mcols b * k + j) (mdata b) O)))
          (seq 0 (mcols a)) acc)
        (seq 0 (mcols b)) acc)
      (seq 0 (mrows a)) (repeat O (mrows a * mcols b)) in
    mat_make (Z.of_nat (mrows a)) (Z.of_nat (mcols b)) newdata.

(** matrix.py:193-202: the [while exp] loop of [__pow__] *)
Fixpoint mat_pow_loop (fuel : nat) (exp : Z) (acc pow2 : mat R) : res (mat R) :=
  match fuel with
  | 0 => Err OutOfFuel
  | S fuel' =>
      if (exp =? 0)%Z then Ok acc
      else
        acc' <- (if (exp mod 2 =? 1)%Z then mat_mul acc pow2 else Ok acc) ;;
        pow2' <- mat_mul pow2 pow2 ;;
        mat_pow_loop fuel' (exp / 2)%Z acc' pow2'
  end.
(** matrix.py:186-202 *)
Definition mat_pow (m : mat R) (exp : Z) : res (mat R) :=
  if negb (mrows m =? mcols m) then Err ValueError
  else if (exp <? 0)%Z then Err NotImplementedError
  else
    acc <- mat_identity (Z.of_nat (mrows m)) ;;
    mat_pow_loop (S (S (Z.to_nat (Z.log2 exp)))) exp acc m.

(** matrix.py:212-216 *)
Definition mat_sub (a b : mat R) : res (mat R) :=
  if negb ((mrows a =? mrows b) && (mcols a =? mcols b)) then Err ValueError
  else mat_make (Z.of_nat (mrows a)) (Z.of_nat (mcols a)) (map (fun '(x, y) => rsub x y) (combine (mdata a) (mdata b))).

(** matrix.py:218-228 *)
Definition mat_trace (m : mat R) : res R :=
  if negb (mrows m =? mcols m) then Err ValueError
  else
    ds <- mapM (fun i => get (mdata m) (mcols m * i + i)) (seq 0 (mrows m)) ;;
    Ok (fold_left radd ds O).

(** matrix.py:233-234: [all(...)] over [zip(range(nrows), range(ncols))], i.e.
    over the diagonal only *)
Definition mat_is_symmetric (m : mat R) : res bool :=
  foldM (fun (acc : bool) '(i, j) =>
      if acc then
        x <- mat_get m (Z.of_nat i) (Z.of_nat j) ;;
        y <- mat_get m (Z.of_nat j) (Z.of_nat i) ;;
        Ok (reqb x y)
      else Ok false)
    (combine (seq 0 (mrows m)) (seq 0 (mcols m))) true.

(** matrix.py:286-287 *)
Definition mat_transpose (m : mat R) : res (mat R) :=
  d <- mapM (fun '(i, j) => mat_get m (Z.of_nat j) (Z.of_nat i)) (pairs (mcols m) (mrows m)) ;;
  mat_make (Z.of_nat (mcols m)) (Z.of_nat (mrows m)) d.
End Ops.

(** matrix.py:297-299 *)
Definition mat_map {R S} (f : R -> S) (m : mat R) : mat S := mkM (mrows m) (mcols m) (map f (mdata m)).

(** matrix.py:7, [==]: dataclass equality with entry comparison [reqb] *)
Fixpoint list_eqb {R} (reqb : R -> R -> bool) (a b : list R) : bool :=
  match a, b with
  | [], [] => true
  | x :: a', y :: b' => reqb x y && list_eqb reqb a' b'
  | _, _ => false
  end.
Definition mat_eqb {R} (reqb : R -> R -> bool) (a b : mat R) : bool :=
  (mrows a =? mrows b) && (mcols a =? mcols b) && list_eqb reqb (mdata a) (mdata b).
