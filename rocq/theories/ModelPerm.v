(** ModelPerm.v – model of /repo/peyl/permutations.py.

    A permutation in word notation is [list nat] (the entries are indices, so
    negative entries are excluded; [is_permutation], whose job is to reject
    bad input, takes arbitrary ints).  Python tuples and lists are both [list].
    A Python [set] of ints is represented by the list of its elements in
    increasing order; nothing below depends on the iteration order except
    where a choice function is taken explicitly. *)

From Verif Require Import Base.

(** permutations.py:25-46.  [min]/[max] are computed on a non-empty word; the
    mask is the bitwise or of [1 << x]; [2**len(word) - 1] is compared to it. *)
Definition zmin (x : Z) (l : list Z) : Z := fold_left Z.min l x.
Definition zmax (x : Z) (l : list Z) : Z := fold_left Z.max l x.
Definition is_permutation (word : list Z) : bool :=
  match word with
  | [] => true
  | x :: rest =>
      if negb (zmin x rest =? 0)%Z || negb (zmax x rest =? Z.of_nat (length word) - 1)%Z
      then false
      else (fold_left (fun acc x => Z.lor acc (Z.shiftl 1 x)) word 0
            =? 2 ^ Z.of_nat (length word) - 1)%Z
  end.

(** permutations.py:49-56 *)
Definition identity (n : nat) : list nat := seq 0 n.

(** permutations.py:59-60 *)
Definition is_identity (perm : list nat) : bool :=
  forallb (fun i => nth i perm 0 =? i) (seq 0 (length perm)).

(** Exchange the entries at two positions, [w[i], w[j] = w[j], w[i]]. *)
Definition swap (w : list nat) (i j : nat) : list nat :=
  upd (upd w i (nth j w 0)) j (nth i w 0).

(** permutations.py:63-72; [n], [i], [j] are non-negative here so the only
    assertion that can fire is the upper bound. *)
Definition transposition (n i j : nat) : res (list nat) :=
  _ <- assert_ ((i <? n) && (j <? n)) ;; Ok (swap (seq 0 n) i j).

(** permutations.py:75-82 *)
Definition longest_element (n : nat) : list nat := map (fun i => n - i - 1) (seq 0 n).

(** permutations.py:85-86 *)
Definition is_longest_element (perm : list nat) : bool :=
  forallb (fun i => nth i perm 0 =? length perm - i - 1) (seq 0 (length perm)).

(** permutations.py:105-111, the inner [while True] of [disjoint_cycles]. *)
Fixpoint cycle_loop (perm : list nat) (i : nat) (fuel pos : nat)
    (cycle : list nat) (visited : list bool) : res (list nat * list bool) :=
  match fuel with
  | 0 => Err OutOfFuel
  | S fuel' =>
      visited' <- set_ visited pos true ;;
      pos' <- get perm pos ;;
      if pos' =? i then Ok (cycle ++ [pos], visited')
      else cycle_loop perm i fuel' pos' (cycle ++ [pos]) visited'
  end.

(** permutations.py:89-115 *)
Definition disjoint_cycles (perm : list nat) : res (list (list nat)) :=
  '(cycles, _) <- foldM (fun '(cycles, visited) i =>
      v <- get visited i ;;
      if (v : bool) then Ok (cycles, visited)
      else
        '(cycle, visited') <- cycle_loop perm i (length perm) i [] visited ;;
        Ok (cycles ++ [cycle], visited'))
    (seq 0 (length perm)) ([], repeat false (length perm)) ;;
  Ok cycles.

(** permutations.py:138-144, the inner [while True] of [cycle_type]. *)
Fixpoint length_loop (perm : list nat) (i : nat) (fuel pos : nat)
    (len : nat) (visited : list bool) : res (nat * list bool) :=
  match fuel with
  | 0 => Err OutOfFuel
  | S fuel' =>
      visited' <- set_ visited pos true ;;
      pos' <- get perm pos ;;
      if pos' =? i then Ok (len + 1, visited')
      else length_loop perm i fuel' pos' (len + 1) visited'
  end.

(** [sorted(l)] and [sorted(l, reverse=True)] on lists of naturals. *)
Fixpoint insert (leb : nat -> nat -> bool) (x : nat) (l : list nat) : list nat :=
  match l with
  | [] => [x]
  | y :: l' => if leb x y then x :: l else y :: insert leb x l'
  end.
Definition sorted (leb : nat -> nat -> bool) (l : list nat) : list nat :=
  fold_right (insert leb) [] l.
Definition geb (x y : nat) : bool := y <=? x.

(** permutations.py:118-149 *)
Definition cycle_type (perm : list nat) : res (list nat) :=
  '(lengths, _) <- foldM (fun '(lengths, visited) i =>
      v <- get visited i ;;
      if (v : bool) then Ok (lengths, visited)
      else
        '(len, visited') <- length_loop perm i (length perm) i 0 visited ;;
        Ok (lengths ++ [len], visited'))
    (seq 0 (length perm)) ([], repeat false (length perm)) ;;
  Ok (sorted geb lengths).

(** permutations.py:152-168 *)
Definition parity (perm : list nat) : res nat :=
  ct <- cycle_type perm ;; Ok ((length ct + length perm) mod 2).

(** permutations.py:171-184 ([length] in the source) *)
Definition plength (perm : list nat) : nat :=
  list_sum (map (fun i =>
    list_sum (map (fun j => if nth j perm 0 <? nth i perm 0 then 1 else 0)
                  (seq (i + 1) (length perm - (i + 1)))))
    (seq 0 (length perm))).

(** permutations.py:187-200 *)
Definition inverse (perm : list nat) : res (list nat) :=
  foldM (fun inv '(i, pi) => set_ inv pi i)
    (combine (seq 0 (length perm)) perm) (repeat 0 (length perm)).

(** permutations.py:204-211; also Permutation.__mul__ (lines 423-431), which
    repeats the same length check. *)
Definition compose (x y : list nat) : res (list nat) :=
  if negb (length x =? length y) then Err ValueError
  else mapM (get x) y.

(** permutations.py:214-227 *)
Definition right_descent_set (perm : list nat) : list nat :=
  filter (fun i => nth (i + 1) perm 0 <? nth i perm 0) (seq 0 (length perm - 1)).

(** permutations.py:230-232 *)
Definition is_right_descent (perm : list nat) (i : nat) : res bool :=
  _ <- assert_ (i <? length perm - 1) ;; Ok (nth (i + 1) perm 0 <? nth i perm 0).

(** permutations.py:235-238 *)
Definition left_descent_set (perm : list nat) : res (list nat) :=
  inv <- inverse perm ;; Ok (right_descent_set inv).

(** [seq.index(x)]: position of the first occurrence, ValueError if absent. *)
Fixpoint list_index (l : list nat) (x : nat) : res nat :=
  match l with
  | [] => Err ValueError
  | y :: l' => if y =? x then Ok 0 else k <- list_index l' x ;; Ok (S k)
  end.

(** permutations.py:241-243 *)
Definition is_left_descent (perm : list nat) (i : nat) : res bool :=
  _ <- assert_ (i <? length perm - 1) ;;
  a <- list_index perm i ;;
  b <- list_index perm (i + 1) ;;
  Ok (b <? a).

(** permutations.py:267-274, the [while] of [shortlex]. *)
Fixpoint shortlex_loop (fuel : nat) (w : list nat) (word : list nat) (i : nat)
    : res (list nat * list nat) :=
  match fuel with
  | 0 => Err OutOfFuel
  | S fuel' =>
      if i <? length w - 1 then
        if nth (i + 1) w 0 <? nth i w 0
        then shortlex_loop fuel' (swap w i (i + 1)) (word ++ [i]) (i - 1)
        else shortlex_loop fuel' w word (i + 1)
      else Ok (w, word)
  end.

(** permutations.py:246-279 *)
Definition shortlex (perm : list nat) : res (list nat) :=
  inv_perm <- inverse perm ;;
  '(w, word) <- shortlex_loop (S (length perm * length perm)) inv_perm [] 0 ;;
  _ <- assert_ (forallb (fun '(i, j) => i =? j) (combine (seq 0 (length w)) w)) ;;
  Ok word.

(** permutations.py:282-289 *)
Definition from_cox (n : nat) (s : list nat) : res (list nat) :=
  _ <- assert_ (forallb (fun s => s <? n - 1) s) ;;
  Ok (fold_left (fun word s => swap word s (s + 1)) s (seq 0 n)).

(** permutations.py:292-305 *)
Definition is_descending_cycles (perm : list nat) : res bool :=
  cycles <- disjoint_cycles perm ;;
  Ok (forallb (fun cycle =>
        forallb (fun '(a, b) => b <=? a) (combine (skipn 1 cycle) (skipn 2 cycle))) cycles).

(** permutations.py:327-333: the loop over [i] for one (sorted) cycle.  [None]
    means "return False". *)
Fixpoint mark_cycle (marked : list bool) (cycle : list nat) : option (list bool) :=
  match cycle with
  | [] => Some marked
  | a :: rest =>
      match rest with
      | [] => Some marked
      | b :: _ =>
          if existsb (fun j => nth j marked false) (seq (a + 1) (b - (a + 1))) then None
          else mark_cycle (upd (upd marked a true) b true) rest
      end
  end.
Fixpoint mark_cycles (marked : list bool) (cycles : list (list nat)) : bool :=
  match cycles with
  | [] => true
  | c :: cs =>
      match mark_cycle marked (sorted Nat.leb c) with
      | None => false
      | Some marked' => mark_cycles marked' cs
      end
  end.

(** permutations.py:308-335 *)
Definition is_parallel_descending_cycles (perm : list nat) : res bool :=
  d <- is_descending_cycles perm ;;
  if negb d then Ok false
  else
    cycles <- disjoint_cycles perm ;;
    Ok (mark_cycles (repeat false (length perm)) cycles).

(** ** class SymmetricGroup and class Permutation (permutations.py:338-438).

    A Permutation object is its [word].  The validation method of both classes
    is called [__post__init__] instead of [__post_init__] (lines 342 and 394),
    so dataclasses never calls it: constructing a Permutation checks nothing. *)
Definition mk_permutation (word : list Z) : res (list Z) := Ok word.

(** permutations.py:353-355; [n - 1] generators. *)
Definition cox_gens (n : nat) : res (list (list nat)) :=
  mapM (fun i => transposition n i (i + 1)) (seq 0 (n - 1)).

(** permutations.py:357-359 *)
Definition reflections (n : nat) : res (list (list nat)) :=
  mapM (fun '(i, j) => transposition n i j)
    (flat_map (fun i => map (fun j => (i, j)) (seq (i + 1) (n - (i + 1)))) (seq 0 (n - 1))).

(** permutations.py:365-373.  [max] of the empty list of counts raises
    ValueError when the cycle is empty.  The index is [(i+1) % self.n]. *)
Definition count (l : list nat) (x : nat) : nat := count_occ Nat.eq_dec l x.
Definition from_cycle (n : nat) (cycle : list nat) : res (list nat) :=
  _ <- assert_ (forallb (fun x => x <? n) cycle) ;;
  match cycle with
  | [] => Err ValueError
  | _ =>
      _ <- assert_ (forallb (fun x => count cycle x <=? 1) cycle) ;;
      foldM (fun word i =>
          k <- get cycle i ;;
          v <- get cycle ((i + 1) mod n) ;;
          set_ word k v)
        (seq 0 (length cycle)) (seq 0 n)
  end.

(** permutations.py:376-378.  The initial value of [reduce] is the bound method
    [self.id], not [self.id()]: with no cycles that method object is returned,
    with at least one, [method * Permutation] raises TypeError (after the lazy
    [map] has evaluated the first cycle). *)
Inductive from_cycles_result := RPerm (w : list nat) | RBoundMethod.
Definition from_cycles (n : nat) (cycles : list (list nat)) : res from_cycles_result :=
  match cycles with
  | [] => Ok RBoundMethod
  | c :: _ => w <- from_cycle n c ;; Err TypeError
  end.

(** permutations.py:381-383: [itertools.permutations(range(n))].  CPython
    documents the order as lexicographic in the input positions; this is that
    enumeration: choose the first entry in order, then permute the rest. *)
Fixpoint picks {A} (l : list A) : list (A * list A) :=
  match l with
  | [] => []
  | x :: l' => (x, l') :: map (fun '(y, r) => (y, x :: r)) (picks l')
  end.
Fixpoint perms_of {A} (k : nat) (l : list A) : list (list A) :=
  match k with
  | 0 => [[]]
  | S k' => flat_map (fun '(x, r) => map (cons x) (perms_of k' r)) (picks l)
  end.
Definition elements (n : nat) : list (list nat) := perms_of n (seq 0 n).
