(** ModelPolymat.v – model of /repo/peyl/polymat.py (numpy 1.26 semantics).

    An array of shape (alpha, I, J, D) is the record of the prefix alpha, the
    three last dimensions, its integer dtype and, for every index of the prefix
    in C order, the block of its I*J*D entries in C order.  Only the dtypes int32
    and int64 occur; arithmetic wraps around as in numpy.  Arrays with fewer than
    three axes (rejected by the assertions of the module) are not represented.
    Views and copies are not distinguished: no function of the module writes to
    its argument.  projrank (floating point ranks) and rhogap (a float) are not
    modelled. *)
From Verif Require Import Base ModelPoly ModelMatrix.
Local Open Scope nat_scope.

Inductive dtype := I32 | I64.
Definition dbits (t : dtype) : Z := match t with I32 => 32 | I64 => 64 end%Z.
(** the value of an integer stored in a signed two's complement cell *)
Definition wrap (t : dtype) (x : Z) : Z := ((x + 2 ^ (dbits t - 1)) mod 2 ^ dbits t - 2 ^ (dbits t - 1))%Z.
Definition fits (t : dtype) (x : Z) : bool := ((- 2 ^ (dbits t - 1) <=? x) && (x <? 2 ^ (dbits t - 1)))%Z.
(** np.result_type of two of these dtypes *)
Definition promote (a b : dtype) : dtype := match a, b with I32, I32 => I32 | _, _ => I64 end.
(** [+] and [*] of two cells of dtype [t] *)
Definition wadd (t : dtype) (x y : Z) : Z := wrap t (x + y).
Definition wmul (t : dtype) (x y : Z) : Z := wrap t (x * y).

Record parr := mkA { apre : list nat; aI : nat; aJ : nat; aD : nat; adt : dtype; ablocks : list (list Z) }.

(** ** numpy indexing *)
Definition size (shape : list nat) : nat := fold_right Nat.mul 1 shape.
(** np.ndindex(shape): the multi-indices in C order *)
Fixpoint indices (shape : list nat) : list (list nat) :=
  match shape with [] => [[]] | s :: ss => flat_map (fun i => map (cons i) (indices ss)) (seq 0 s) end.
(** the position of a multi-index in C order *)
Fixpoint ravel (shape idx : list nat) : nat :=
  match shape, idx with s :: ss, i :: is => i * size ss + ravel ss is | _, _ => 0 end.
(** the entry [i, j, d] of a block; [bget] is only used in range *)
Definition bget (J D : nat) (b : list Z) (i j d : nat) : Z := nth ((i * J + j) * D + d) b 0%Z.
(** the block with given entries *)
Definition btab (I J D : nat) (f : nat -> nat -> nat -> Z) : list Z :=
  flat_map (fun i => flat_map (fun j => map (fun d => f i j d) (seq 0 D)) (seq 0 J)) (seq 0 I).
Definition block (A : parr) (idx : list nat) : list Z := nth (ravel (apre A) idx) (ablocks A) [].
(** [A[..., s:e]] for 0 <= s <= e <= D *)
Definition bslice (I J D s e : nat) (b : list Z) : list Z := btab I J (e - s) (fun i j d => bget J D b i j (s + d)).
Definition slice_deg (A : parr) (s e : nat) : parr :=
  mkA (apre A) (aI A) (aJ A) (e - s) (adt A) (map (bslice (aI A) (aJ A) (aD A) s e) (ablocks A)).
(** [A[i]] for a batch with a one-axis prefix; a negative int counts from the end *)
Definition arr_item (A : parr) (i : Z) : res parr :=
  match apre A with
  | [_] => b <- pyget (ablocks A) i ;; Ok (mkA [] (aI A) (aJ A) (aD A) (adt A) [b])
  | _ => Err NotModelled
  end.

(** np.any over the matrix axes, at degree d of a block *)
Definition bnz (I J D : nat) (b : list Z) (d : nat) : bool :=
  existsb (fun i => existsb (fun j => negb (bget J D b i j d =? 0)%Z) (seq 0 J)) (seq 0 I).
(** np.any(block) *)
Definition bany (b : list Z) : bool := existsb (fun x => negb (x =? 0)%Z) b.
(** np.any(A[..., d]) *)
Definition any_deg (A : parr) (d : nat) : bool := existsb (fun b => bnz (aI A) (aJ A) (aD A) b d) (ablocks A).

(** ** the functions *)

(** polymat.py:19-23 *)
Definition eye (n : Z) : res parr :=
  if (n <? 0)%Z then Err ValueError
  else Ok (mkA [] (Z.to_nat n) (Z.to_nat n) 1 I64 [btab (Z.to_nat n) (Z.to_nat n) 1 (fun i j _ => if i =? j then 1%Z else 0%Z)]).

(** polymat.py:26-35; the [while] loop is the recursion on [last] *)
Fixpoint trim_last (A : parr) (last : nat) : nat :=
  match last with 0 => 0 | S m => if any_deg A m then S m else trim_last A m end.
Definition trim (A : parr) : parr :=
  let last := trim_last A (aD A) in if last <? aD A then slice_deg A 0 last else A.

(** polymat.py:38-49; [fuel] counts down last - start *)
Fixpoint trim_start (A : parr) (fuel start : nat) : nat :=
  match fuel with 0 => start | S f => if any_deg A start then start else trim_start A f (S start) end.
Definition trim_left_deg (A : parr) : nat * parr :=
  let start := trim_start A (aD A) 0 in (start, if negb (start =? 0) then slice_deg A start (aD A) else A).

(** np.broadcast_shapes on two shapes of the same length, then on any two:
    the shorter one is extended by 1s on the left *)
Fixpoint broadcast (a b : list nat) : res (list nat) :=
  match a, b with
  | x :: a', y :: b' =>
      c <- broadcast a' b' ;;
      if x =? y then Ok (x :: c) else if x =? 1 then Ok (y :: c) else if y =? 1 then Ok (x :: c) else Err ValueError
  | _, _ => Ok []
  end.
Definition lpad (k : nat) (a : list nat) : list nat := repeat 1 (k - length a) ++ a.
Definition broadcast_shapes (a b : list nat) : res (list nat) := broadcast (lpad (length b) a) (lpad (length a) b).
(** the index of the operand of shape [a] used for the index [idx] of the
    broadcast shape: surplus axes on the left are dropped, axes of length 1 are
    indexed by 0 *)
Definition bidx (a idx : list nat) : list nat :=
  map (fun '(s, i) => if s =? 1 then 0 else i) (combine a (skipn (length idx - length a) idx)).

(** the entry (i, k) of [A[..., a] @ B[..., b]] on one pair of blocks, in dtype [t] *)
Definition matmul_entry (t : dtype) (J D K E : nat) (x y : list Z) (i k a b : nat) : Z :=
  fold_left (fun s j => wadd t s (wmul t (bget J D x i j a) (bget K E y j k b))) (seq 0 J) 0%Z.
(** [sum(A[..., i] @ B[..., d - i] for i in range(d + 1) if i < D and d - i < E)] *)
Definition mul_entry (t : dtype) (J D K E : nat) (x y : list Z) (i k d : nat) : Z :=
  fold_left (fun s a => wadd t s (matmul_entry t J D K E x y i k a (d - a)))
    (filter (fun a => (a <? D) && (d - a <? E)) (seq 0 (d + 1))) 0%Z.
(** polymat.py:52-77.  The result has the dtype of A, so the sum is cast. *)
Definition mul (A B : parr) (quotdeg : option Z) : res parr :=
  _ <- assert_ (aJ A =? aI B) ;;
  _ <- assert_ (match quotdeg with None => true | Some q => 0 <=? q end)%Z ;;
  let P := match quotdeg with None => (Z.of_nat (aD A) + Z.of_nat (aD B) - 1)%Z | Some q => q end in
  prefix <- broadcast_shapes (apre A) (apre B) ;;
  if (P <? 0)%Z then Err ValueError
  else
    let t := promote (adt A) (adt B) in
    Ok (mkA prefix (aI A) (aJ B) (Z.to_nat P) (adt A)
      (map (fun idx =>
          btab (aI A) (aJ B) (Z.to_nat P) (fun i k d =>
            wrap (adt A) (mul_entry t (aJ A) (aD A) (aJ B) (aD B) (block A (bidx (apre A) idx)) (block B (bidx (apre B) idx)) i k d)))
        (indices prefix))).

(** the block padded with zero degrees on the right, cast to dtype [t] *)
Definition bpad (t : dtype) (I J D D' : nat) (b : list Z) : list Z :=
  btab I J D' (fun i j d => if d <? D then wrap t (bget J D b i j d) else 0%Z).
Definition list_max (l : list nat) : nat := fold_right Nat.max 0 l.

(** polymat.py:80-101 *)
Definition pack (As : list parr) : res parr :=
  _ <- assert_ (1 <=? length As) ;;
  _ <- assert_ (forallb (fun A => length (apre A) =? 0) As) ;;
  A0 <- get As 0 ;;
  _ <- assert_ (forallb (fun A => (aI A =? aI A0) && (aJ A =? aJ A0)) As) ;;
  let Ts := map trim As in
  let D := list_max (map aD Ts) in
  Ok (mkA [length As] (aI A0) (aJ A0) D (adt A0) (map (fun A => bpad (adt A0) (aI A) (aJ A) (aD A) D (block A [])) Ts)).

(** polymat.py:104-109 *)
Definition zeropad (A : parr) (D : Z) : res parr :=
  _ <- assert_ (Z.of_nat (aD A) <=? D)%Z ;;
  Ok (mkA (apre A) (aI A) (aJ A) (Z.to_nat D) (adt A) (map (bpad (adt A) (aI A) (aJ A) (aD A) (Z.to_nat D)) (ablocks A))).

(** polymat.py:112-126.  np.concatenate promotes to the widest dtype. *)
Definition concatenate (As : list parr) : res parr :=
  match As with
  | [] => Ok (mkA [0] 1 1 1 I64 [])
  | A0 :: _ =>
      _ <- assert_ (forallb (fun A => length (apre A) =? 1) As) ;;
      _ <- assert_ (forallb (fun A => (aI A =? aI A0) && (aJ A =? aJ A0)) As) ;;
      let Ts := map trim As in
      let D := list_max (map aD Ts) in
      Zs <- mapM (fun A => zeropad A (Z.of_nat D)) Ts ;;
      Ok (mkA [length (concat (map ablocks Zs))] (aI A0) (aJ A0) D (fold_left promote (map adt Zs) (adt A0)) (concat (map ablocks Zs)))
  end.

(** polymat.py:129-145 *)
Definition burau_generator_v2 (n s : Z) : res parr :=
  _ <- assert_ (1 <=? n)%Z ;;
  _ <- assert_ ((0 <=? s) && (s <? n - 1))%Z ;;
  let m := Z.to_nat (n - 1) in
  let s := Z.to_nat s in
  Ok (mkA [] m m 3 I64 [btab m m 3 (fun i j d =>
    nth d (if (i =? s) && ((j =? s + 1) || (j + 1 =? s)) then [0; -1; 0]%Z
           else if (i =? s) && (j =? s) then [0; 0; -1]%Z
           else if i =? j then [1; 0; 0]%Z else [0; 0; 0]%Z) 0%Z)]).

(** polymat.py:148-155; Matrix.from_rows raises IndexError when there is no row *)
Definition to_matrix (A : parr) : res (mat num) :=
  _ <- assert_ (length (apre A) =? 0) ;;
  mat_from_rows (map (fun i => map (fun j =>
      NL (lpoly_make 0 (map (fun d => bget (aJ A) (aD A) (block A []) i j d) (seq 0 (aD A))))) (seq 0 (aJ A))) (seq 0 (aI A))).

Definition is_int (x : num) : bool := match x with NI _ => true | NL _ => false end.
Definition lentry (x : num) : lpoly := match x with NL l => l | NI _ => lint 0 end.
(** min / max of a non-empty list of ints *)
Definition zmin (l : list Z) : Z := match l with [] => 0%Z | x :: l' => fold_left Z.min l' x end.
Definition zmax (l : list Z) : Z := match l with [] => 0%Z | x :: l' => fold_left Z.max l' x end.
(** [A[i, j, x.val:x.val+len(x.coeffs)] = x.coeffs]: Python ints that do not fit a
    C long raise OverflowError; otherwise they are cast to the dtype (numpy 1.26
    only warns when an int32 cell is too small) *)
Definition entry_row (t : dtype) (D : nat) (x : lpoly) : res (list Z) :=
  if forallb (fits I64) (lcoeffs x) then
    Ok (map (fun d => if (d <? Z.to_nat (lval x)) then 0%Z else wrap t (nth (d - Z.to_nat (lval x)) (lcoeffs x) 0%Z)) (seq 0 D))
  else Err OverflowError.
(** polymat.py:157-187.  The result None (ints and LPolys mixed) is [Ok None].
    An int matrix whose entries do not fit int64, or with no entry, gives an
    array of another dtype or shape: not modelled. *)
Definition from_matrix (m : mat num) (proj : bool) (t : dtype) : res (option parr) :=
  if forallb is_int (mdata m) then
    let cs := map (fun x => match x with NI c => c | NL _ => 0%Z end) (mdata m) in
    if (length cs =? 0) || negb (forallb (fits I64) cs) then Err NotModelled
    else Ok (Some (mkA [] (mrows m) (mcols m) 1 I64 [cs]))
  else if forallb (fun x => negb (is_int x)) (mdata m) then
    let ls := map lentry (mdata m) in
    let nzs := filter (fun x => negb (lis_zero x)) ls in
    if forallb lis_zero ls then Ok (Some (mkA [] (mrows m) (mcols m) 1 I64 [repeat 0%Z (mrows m * mcols m)]))
    else
      let minval := zmin (map lval nzs) in
      if (minval <? 0)%Z && negb proj then Err ValueError
      else
        let ls := if (minval <? 0)%Z then map (fun x => lmul x (lpoly_make (- minval) [1%Z])) ls else ls in
        let nzs := filter (fun x => negb (lis_zero x)) ls in
        let minval := zmin (map lval nzs) in
        let maxdeg := zmax (map ldegree nzs) in
        if (minval <? 0)%Z then Err ValueError
        else
          rows <- mapM (entry_row t (Z.to_nat (maxdeg + 1))) ls ;;
          Ok (Some (mkA [] (mrows m) (mcols m) (Z.to_nat (maxdeg + 1)) t [concat rows]))
  else Ok None.

(** np.argmax of a non-empty list of booleans: the first True, or 0 *)
Definition argmax (l : list bool) : nat :=
  (fix go (l : list bool) (i : nat) := match l with [] => 0 | b :: l' => if b then i else go l' (S i) end) l 0.
(** np.any(A, axis=(-3, -2)) on one block *)
Definition nonzeros (A : parr) (b : list Z) : list bool := map (bnz (aI A) (aJ A) (aD A) b) (seq 0 (aD A)).
(** np.argmax along an axis of length 0 raises ValueError *)
Definition argmax_axis (A : parr) (f : list Z -> list bool) : res (list nat) :=
  if aD A =? 0 then Err ValueError else Ok (map (fun b => argmax (f b)) (ablocks A)).

(** polymat.py:281-296 *)
Definition proj_starts_ends (A : parr) : res (list nat * list nat) :=
  _ <- assert_ (forallb bany (ablocks A)) ;;
  starts <- argmax_axis A (nonzeros A) ;;
  ends' <- argmax_axis A (fun b => rev (nonzeros A b)) ;;
  Ok (starts, map (fun e => aD A - e) ends').

(** polymat.py:190-216.  [A[..., 0]] raises IndexError when D = 0; np.max of an
    empty batch raises ValueError.  For a three-axis array the slice
    [A[..., starts:ends]] has no padding, and none is added below. *)
Definition projectivise (A : parr) : res parr :=
  _ <- assert_ (forallb bany (ablocks A)) ;;
  if aD A =? 0 then Err IndexError
  else if forallb (fun b => bnz (aI A) (aJ A) (aD A) b 0) (ablocks A) && any_deg A (aD A - 1) then Ok A
  else
    '(starts, ends) <- proj_starts_ends A ;;
    match ablocks A with
    | [] => Err ValueError
    | _ =>
        let width := list_max (map (fun '(s, e) => e - s) (combine starts ends)) in
        Ok (mkA (apre A) (aI A) (aJ A) width (adt A)
          (map (fun '(b, (s, e)) =>
              btab (aI A) (aJ A) width (fun i j d => if d <? e - s then bget (aJ A) (aD A) b i j (s + d) else 0%Z))
            (combine (ablocks A) (combine starts ends))))
    end.

(** polymat.py:222-229 *)
Definition degmax (A : parr) : res (list Z) :=
  l <- argmax_axis A (fun b => rev (nonzeros A b)) ;;
  Ok (map (fun e => Z.of_nat (aD A) - 1 - Z.of_nat e)%Z l).
(** polymat.py:232-235 *)
Definition valmin (A : parr) : res (list Z) :=
  l <- argmax_axis A (nonzeros A) ;; Ok (map Z.of_nat l).
(** polymat.py:238-241 *)
Definition nz_terms (A : parr) : list nat := map (fun b => length (filter (fun x => negb (x =? 0)%Z) b)) (ablocks A).
(** polymat.py:262-268; np.where evaluates both branches *)
Definition efflen (A : parr) : res (list Z) :=
  dm <- degmax A ;; vm <- valmin A ;;
  Ok (map (fun '(b, (x, y)) => if bany b then x - y else 0)%Z (combine (ablocks A) (combine dm vm))).
(** polymat.py:270-279 *)
Definition projlen (A : parr) : res (list Z) :=
  starts <- argmax_axis A (nonzeros A) ;;
  ends' <- argmax_axis A (fun b => rev (nonzeros A b)) ;;
  Ok (map (fun '(s, e) => Z.of_nat (aD A) - Z.of_nat e - Z.of_nat s)%Z (combine starts ends')).

(** [A % p] for p > 0: numpy's % has the sign of the divisor.  A modulus that
    does not fit the dtype promotes the result; above int64 it is not modelled. *)
Definition arr_mod (A : parr) (p : Z) : res parr :=
  if fits I64 p then
    Ok (mkA (apre A) (aI A) (aJ A) (aD A) (if fits (adt A) p then adt A else I64) (map (map (fun x => x mod p)%Z) (ablocks A)))
  else Err NotModelled.
