(** ModelTL.v – model of /repo/peyl/tl.py lines 24-327: crossingless matchings,
    composition of Temperley-Lieb diagrams, the classes TLDiag and TLExtDiag,
    the diagram bases and cell bases.

    Simplification: apart from [is_crossingless], whose argument is an arbitrary
    sequence of Python ints, sequences are lists of naturals.  Every entry of a
    diagram is a natural because both constructors assert
    [is_crossingless_matching]. *)
From Verif Require Import Base.

(** ** is_crossingless_matching, tl.py:24-42 *)
(** tl.py:27-31: [0 <= seq[i] < len(seq) and seq[i] != i and seq[seq[i]] == i];
    the last test is only reached with an index in range. *)
Definition icm_entry (s : list Z) (i : nat) : bool :=
  let x := nth i s (-1)%Z in
  ((0 <=? x) && (x <? Z.of_nat (length s)))%Z && negb (x =? Z.of_nat i)%Z
  && (nth (Z.to_nat x) s (-1) =? Z.of_nat i)%Z.
(** tl.py:34-40, the loop from index [i], on the suffix [rest] of the sequence.
    [stack.pop()] on an empty list raises IndexError. *)
Fixpoint icm_loop (rest : list Z) (i : Z) (stack : list Z) : res bool :=
  match rest with
  | [] => Ok true
  | x :: rest' =>
      if (i <? x)%Z then icm_loop rest' (i + 1)%Z (x :: stack)
      else match stack with
           | [] => Err IndexError
           | y :: stack' => if negb (y =? i)%Z then Ok false else icm_loop rest' (i + 1)%Z stack'
           end
  end.
Definition is_crossingless_matching (s : list Z) : res bool :=
  if negb (forallb (icm_entry s) (seq 0 (length s))) then Ok false
  else icm_loop s 0%Z [].

(** the same test applied to a sequence of naturals *)
Definition is_cm (s : list nat) : res bool := is_crossingless_matching (map Z.of_nat s).

(** ** generate_sequences, tl.py:45-71 *)
(** [place_trees] is a generator that mutates the shared list [seq] and yields
    at points where the caller runs code that mutates it too; the caller's code
    at a yield is the continuation [k], which returns the list as it leaves it
    and the tuples it output.  tl.py:56-68. [fuel] bounds the recursion depth
    (the size decreases). *)
Definition gen_st : Type := (list nat * list (list nat))%type.
Fixpoint place_trees (fuel : nat) (i size : nat) (k : list nat -> gen_st) (s : list nat) : gen_st :=
  match fuel with
  | 0 => (s, [])
  | S fuel' =>
      if size =? 0 then k s
      else fold_left (fun '(s, out) left_size =>
             let l := i in let r := i + 1 + 2 * left_size in
             let s1 := upd (upd s l r) r l in
             let '(s2, out2) :=
               place_trees fuel' (l + 1) left_size
                 (fun s => place_trees fuel' (r + 1) (size - left_size - 1) k s) s1 in
             (s2, out ++ out2)) (seq 0 size) (s, [])
  end.
(** The initial entries are -1 in the code; they are all overwritten before the
    first yield, 0 here. tl.py:45-71 *)
Definition generate_sequences (n : Z) : res (list (list nat)) :=
  if ((n <? 0) || (n mod 2 =? 1))%Z then Err ValueError
  else
    let m := Z.to_nat (n / 2) in
    Ok (snd (place_trees (S m) 0 m (fun s => (s, [s])) (repeat 0 (Z.to_nat n)))).

(** ** compose, tl.py:74-145 *)
(** tl.py:103-128: the walk from one boundary vertex. [side = false] is the
    lower diagram.  Returns the final value of result[i] and [visited]. *)
Fixpoint walk (fuel : nat) (upper lower : list nat) (mid bot : nat) (v : nat) (side : bool) (visited : list bool)
  : res (nat * list bool) :=
  match fuel with
  | 0 => Err OutOfFuel
  | S fuel' =>
      if negb side then
        v <- get lower v ;;
        if v <? bot then Ok (v, visited)
        else
          let v := length lower - v - 1 in
          visited <- set_ visited v true ;;
          walk fuel' upper lower mid bot v true visited
      else
        v <- get upper v ;;
        if mid <=? v then Ok (v - mid + bot, visited)
        else
          visited <- set_ visited v true ;;
          walk fuel' upper lower mid bot (length lower - v - 1) false visited
  end.
(** tl.py:137-142: follow one loop of the middle row. *)
Fixpoint loop_walk (fuel : nat) (upper lower : list nat) (v : nat) (visited : list bool) : res (list bool) :=
  match fuel with
  | 0 => Err OutOfFuel
  | S fuel' =>
      visited <- set_ visited v true ;;
      u <- get upper v ;;
      visited <- set_ visited u true ;;
      w <- get lower (length lower - u - 1) ;;
      let v := length lower - w - 1 in
      b <- get visited v ;;
      if b then Ok visited else loop_walk fuel' upper lower v visited
  end.
Definition compose (upper lower : list nat) (mid : nat) : res (list nat * nat) :=
  let U := length upper in let L := length lower in
  _ <- assert_ ((mid <=? L) && (mid <=? U)) ;;
  let top := U - mid in let bot := L - mid in
  let fuel := S (2 * mid) in
  (* tl.py:101-128 *)
  '(result, visited) <- foldM (fun '(result, visited) i =>
      let '(v, side) := if i <? bot then (i, false) else (i - bot + mid, true) in
      '(r, visited) <- walk fuel upper lower mid bot v side visited ;;
      Ok (result ++ [r], visited)) (seq 0 (bot + top)) ([], repeat false mid) ;;
  (* tl.py:130 *)
  ok <- is_cm result ;;
  _ <- assert_ ok ;;
  (* tl.py:134-144 *)
  '(_, bubbles) <- foldM (fun '(visited, bubbles) i =>
      b <- get visited i ;;
      if (b : bool) then Ok (visited, bubbles)
      else visited <- loop_walk fuel upper lower i visited ;; Ok (visited, S bubbles))
      (seq 0 mid) (visited, 0) ;;
  Ok (result, bubbles).

(** tl.py:148-155 *)
Definition trace_count (s : list nat) : res nat :=
  '(result, bubbles) <- compose s (rev (seq 0 (length s))) (length s) ;;
  _ <- assert_ (match result with [] => true | _ => false end) ;;
  Ok bubbles.

(** tl.py:157-164 *)
Definition insert (outer inner : list nat) (i : nat) : res (list nat) :=
  _ <- assert_ (i <=? length outer) ;;
  let sh := fun x => if x <? i then x else x + length inner in
  Ok (map sh (firstn i outer) ++ map (fun x => x + i) inner ++ map sh (skipn i outer)).

(** ** TLDiag, tl.py:167-210 *)
Record diag := mkD { dtop : nat; dbot : nat; dseq : list nat }.
(** tl.py:173-181 *)
Definition tld (top bot : nat) (s : list nat) : res diag :=
  _ <- assert_ (top + bot =? length s) ;;
  ok <- is_cm s ;;
  _ <- assert_ ok ;;
  Ok (mkD top bot s).
(** tl.py:183-185 *)
Definition id_seq (n : nat) : list nat := map (fun i => 2 * n - i - 1) (seq 0 (2 * n)).
Definition tld_id (n : nat) : res diag := tld n n (id_seq n).
(** tl.py:187-194 *)
Definition tld_mul (u l : diag) : res (diag * nat) :=
  if negb (dbot u =? dtop l) then Err ValueError
  else '(s, bubbles) <- compose (dseq u) (dseq l) (dbot u) ;;
       d <- tld (dtop u) (dbot l) s ;;
       Ok (d, bubbles).
(** tl.py:196-202 *)
Definition tld_tensor (a b : diag) : res diag :=
  s <- insert (dseq a) (dseq b) (dbot a) ;;
  tld (dtop a + dtop b) (dbot a + dbot b) s.
(** tl.py:204-210 *)
Definition tld_flip (d : diag) : res diag :=
  tld (dbot d) (dtop d) (map (fun i => dtop d + dbot d - 1 - i) (rev (dseq d))).
(** tl.py:215-217 *)
Definition through_strands (d : diag) : nat :=
  length (filter (fun i => dbot d <=? nth i (dseq d) 0) (seq 0 (dbot d))).

(** The comparison generated by [@dataclass(order=True)], tl.py:167: fields as
    tuples, sequences lexicographically. *)
Fixpoint list_leb (a b : list nat) : bool :=
  match a, b with
  | [], _ => true
  | _ :: _, [] => false
  | x :: a', y :: b' => if x =? y then list_leb a' b' else x <? y
  end.
Definition diag_leb (a b : diag) : bool :=
  if dtop a =? dtop b then if dbot a =? dbot b then list_leb (dseq a) (dseq b) else dbot a <? dbot b
  else dtop a <? dtop b.
(** The generated [__eq__]. *)
Fixpoint list_eqb (a b : list nat) : bool :=
  match a, b with
  | [], [] => true
  | x :: a', y :: b' => (x =? y) && list_eqb a' b'
  | _, _ => false
  end.
Definition diag_eqb (a b : diag) : bool :=
  (dtop a =? dtop b) && (dbot a =? dbot b) && list_eqb (dseq a) (dseq b).
(** [sorted]: a stable insertion sort *)
Fixpoint insert_sorted {A} (leb : A -> A -> bool) (x : A) (l : list A) : list A :=
  match l with
  | [] => [x]
  | y :: l' => if leb x y then x :: l else y :: insert_sorted leb x l'
  end.
Definition sorted_by {A} (leb : A -> A -> bool) (l : list A) : list A :=
  fold_right (insert_sorted leb) [] l.

(** tl.py:219-222 *)
Definition tl_basis (top bot : nat) : res (list diag) :=
  _ <- assert_ ((top + bot) mod 2 =? 0) ;;
  ss <- generate_sequences (Z.of_nat (top + bot)) ;;
  mapM (tld top bot) ss.
(** tl.py:224-226 *)
Definition tl_tableaux_basis (top strands : nat) : res (list diag) :=
  _ <- assert_ ((strands <=? top) && (top mod 2 =? strands mod 2)) ;;
  b <- tl_basis top strands ;;
  Ok (filter (fun d => through_strands d =? strands) b).

(** math.comb *)
Fixpoint comb (n k : nat) : nat :=
  match n, k with
  | _, 0 => 1
  | 0, S _ => 0
  | S n', S k' => comb n' k' + comb n' (S k')
  end.
(** tl.py:228-231; the subtraction of naturals is exact because the second
    binomial is not the larger one for 2r <= n (see C32). *)
Definition cell_dimension (n r : nat) : res Z :=
  _ <- assert_ (2 * r <=? n) ;;
  Ok (Z.of_nat (comb n r) - (if (r =? 0)%nat then 0 else Z.of_nat (comb n (r - 1))))%Z.
(** tl.py:233-255. [functools.cache] only avoids recomputation (the lists are
    never mutated).  The recursion decreases n. *)
Fixpoint cell_basis (n r : nat) : res (list diag) :=
  if n <? 2 * r then Ok []
  else if r =? 0 then d <- tld_id n ;; Ok [d]
  else match n with
       | 0 => d <- tld_id n ;; Ok [d]
       | S n' =>
           bar <- tld_id 1 ;;
           b1 <- cell_basis n' r ;;
           b1 <- mapM (fun d => tld_tensor d bar) b1 ;;
           b2 <- cell_basis n' (r - 1) ;;
           b2 <- mapM (fun d => tld n (n - 2 * r) (dseq d)) b2 ;;
           Ok (sorted_by diag_leb (b1 ++ b2))
       end.

(** the sequence of e_i, tl.py:285-293 and 353-362 *)
Definition e_seq (i n : nat) : list nat :=
  let s := id_seq n in
  let s := upd (upd s i (i + 1)) (i + 1) i in
  upd (upd s (2 * n - i - 1) (2 * n - i - 2)) (2 * n - i - 2) (2 * n - i - 1).

(** ** TLExtDiag, tl.py:258-327 *)
Record ediag := mkE { etop : nat; ebot : nat; eseq : list nat; ebubbles : Z }.
(** tl.py:269-278 *)
Definition tle (top bot : nat) (s : list nat) (bubbles : Z) : res ediag :=
  _ <- assert_ (top + bot =? length s) ;;
  ok <- is_cm s ;;
  _ <- assert_ ok ;;
  Ok (mkE top bot s bubbles).
(** tl.py:280-293 *)
Definition tle_id (n : nat) : res ediag := tle n n (id_seq n) 0.
Definition tle_e (i n : nat) : res ediag :=
  _ <- assert_ (S i <? n) ;; tle n n (e_seq i n) 0.
(** tl.py:295-301 *)
Definition tle_add_bubbles (d : ediag) (k : Z) : res ediag := tle (etop d) (ebot d) (eseq d) (ebubbles d + k)%Z.
Definition tle_split (d : ediag) : res (ediag * Z) := x <- tle (etop d) (ebot d) (eseq d) 0 ;; Ok (x, ebubbles d).
(** tl.py:303-312: note the order of the first two arguments of [compose]. *)
Definition tle_mul (a b : ediag) : res ediag :=
  if negb (ebot a =? etop b) then Err ValueError
  else '(s, bubbles) <- compose (eseq b) (eseq a) (ebot a) ;;
       tle (etop a) (ebot b) s (ebubbles a + ebubbles b + Z.of_nat bubbles)%Z.
(** tl.py:314-324 *)
Definition tle_tensor (a b : ediag) : res ediag :=
  s <- insert (eseq a) (eseq b) (ebot a) ;;
  tle (etop a + etop b) (ebot a + ebot b) s (ebubbles a + ebubbles b)%Z.
