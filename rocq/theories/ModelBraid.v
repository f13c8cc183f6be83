(** ModelBraid.v – model of /repo/peyl/braid.py: the NFTable algorithms, the
    permutation table, NFBase and GNF.

    Table indices, powers and factors are Python ints, [Z]; looking one up in a
    table is [pyget], which wraps negative indices and raises IndexError. *)
From Verif Require Import Base ModelPerm.

(** braid.py:43-79.  [divs] is the list of divisors; [index] is the dict
    {divisor: position}, looked up with [dict_index]. *)
Record nftable (A : Type) := {
  t_n : nat;
  t_order : nat;
  t_divs : list A;
  t_eqb : A -> A -> bool;            (* equality of divisors, for [index] *)
  t_id : Z;
  t_D : Z;
  t_gens : list Z;                    (* artin_gens *)
  t_lc : list Z;                      (* left_comp *)
  t_rc : list Z;                      (* right_comp *)
  t_tau_order : Z;
  t_tau_left : list (list Z);
  t_tau_right : list (list Z);
  t_renorm : list (list (Z * Z));
  t_isnorm : list (list bool);        (* is_normalised *)
  t_follows : list (list Z);
  t_word : list (list (Z * Z))        (* artin_word *)
}.
Arguments t_n {A}. Arguments t_order {A}. Arguments t_divs {A}. Arguments t_eqb {A}.
Arguments t_id {A}. Arguments t_D {A}. Arguments t_gens {A}. Arguments t_lc {A}. Arguments t_rc {A}.
Arguments t_tau_order {A}. Arguments t_tau_left {A}. Arguments t_tau_right {A}.
Arguments t_renorm {A}. Arguments t_isnorm {A}. Arguments t_follows {A}. Arguments t_word {A}.

Section Table.
Context {A : Type}.
Variable tbl : nftable A.

(** [table[x][y]] *)
Definition lookup2 {B} (t : list (list B)) (x y : Z) : res B := row <- pyget t x ;; pyget row y.

Definition index (x : A) : res Z := k <- dict_index (t_eqb tbl) (t_divs tbl) x ;; Ok (Z.of_nat k).

(** braid.py:81-90 *)
Fixpoint pairs_normalised (factors : list Z) : res bool :=
  match factors with
  | [] => Ok true
  | x :: rest =>
      match rest with
      | [] => Ok true
      | y :: _ =>
          b <- lookup2 (t_isnorm tbl) x y ;;
          if (b : bool) then pairs_normalised rest else Ok false
      end
  end.
Definition is_factors_normalised (factors : list Z) : res bool :=
  b <- pairs_normalised factors ;;
  if negb b then Ok false
  else match factors with
       | [] => Ok true
       | x :: _ => Ok (negb (x =? t_D tbl)%Z && negb (last factors x =? t_id tbl)%Z)
       end.

(** [factors[j], factors[j+1] = self.renorm[factors[j]][factors[j+1]]] *)
Definition renorm_at (f : list Z) (j : nat) : res (list Z) :=
  x <- get f j ;;
  y <- get f (j + 1) ;;
  '(w, z) <- lookup2 (t_renorm tbl) x y ;;
  Ok (upd (upd f j w) (j + 1) z).

(** braid.py:105-112 and 145-152: skip leading D's, then trailing id's. *)
Fixpoint count_lead (f : list Z) : nat :=
  match f with
  | x :: f' => if (x =? t_D tbl)%Z then S (count_lead f') else 0
  | [] => 0
  end.
Fixpoint drop_id (f : list Z) : list Z :=   (* on the reversed list *)
  match f with
  | x :: f' => if (x =? t_id tbl)%Z then drop_id f' else f
  | [] => []
  end.
Definition strip (f : list Z) : Z * list Z :=
  let l := count_lead f in
  (Z.of_nat l, rev (drop_id (rev (skipn l f)))).

(** braid.py:92-112 *)
Definition normalise_factors (s : list Z) : res (Z * list Z) :=
  f <- foldM (fun f i =>
      f <- renorm_at f i ;;
      f <- foldM renorm_at (rev (seq 0 i)) f ;;
      foldM renorm_at (seq (i + 1) (length s - 1 - (i + 1))) f)
    (seq 0 (length s - 1)) s ;;
  Ok (strip f).

(** braid.py:137-142: combing backwards with early exit. *)
Fixpoint comb_loop (f : list Z) (js : list nat) : res (list Z) :=
  match js with
  | [] => Ok f
  | j :: js' =>
      a <- get f j ;;
      b <- get f (j + 1) ;;
      '(x, y) <- lookup2 (t_renorm tbl) a b ;;
      if (x =? a)%Z then Ok f
      else comb_loop (upd (upd f j x) (j + 1) y) js'
  end.
(** braid.py:125-143: the outer loop with early exit. *)
Fixpoint pnf_loop (f : list Z) (is : list nat) : res (list Z) :=
  match is with
  | [] => Ok f
  | i :: is' =>
      a <- get f i ;;
      b <- get f (i + 1) ;;
      '(x, y) <- lookup2 (t_renorm tbl) a b ;;
      if (x =? a)%Z then Ok f
      else f' <- comb_loop (upd (upd f i x) (i + 1) y) (rev (seq 0 i)) ;; pnf_loop f' is'
  end.

(** braid.py:114-152 *)
Definition product_normalised_factors (left right : list Z) : res (Z * list Z) :=
  fast <- (match left, right with
           | [], _ => Ok true
           | _, [] => Ok true
           | x :: _, y :: _ => lookup2 (t_isnorm tbl) (last left x) y
           end) ;;
  if (fast : bool) then Ok (0%Z, left ++ right)
  else
    f <- pnf_loop (left ++ right)
           (seq (length left - 1) (length (left ++ right) - 1 - (length left - 1))) ;;
    Ok (strip f).

(** braid.py:154-170; the generator is modelled by the list it yields. *)
Definition start (following : option Z) : Z :=
  match following with Some x => x | None => t_D tbl end.
Fixpoint nf_helper (len : nat) (following : Z) : res (list (list Z)) :=
  match len with
  | 0 => Ok [[]]
  | S k =>
      row <- pyget (t_follows tbl) following ;;
      parts <- mapM (fun x => tails <- nf_helper k x ;; Ok (map (cons x) tails)) row ;;
      Ok (concat parts)
  end.
Definition normal_forms (len : Z) (following : option Z) : res (list (list Z)) :=
  _ <- assert_ (0 <=? len)%Z ;; nf_helper (Z.to_nat len) (start following).

(** braid.py:172-190; a dict of counts is an association list in insertion order. *)
Fixpoint dict_add (d : list (Z * Z)) (k v : Z) : list (Z * Z) :=
  match d with
  | [] => [(k, v)]
  | (k', v') :: d' => if (k =? k')%Z then (k', (v' + v)%Z) :: d' else (k', v') :: dict_add d' k v
  end.
Definition count_step (counts : list (Z * Z)) : res (list (Z * Z)) :=
  foldM (fun acc '(x, c) =>
      row <- pyget (t_follows tbl) x ;;
      Ok (fold_left (fun acc y => dict_add acc y c) row acc))
    counts [].
Fixpoint dict_set (d : list (Z * Z)) (k v : Z) : list (Z * Z) :=
  match d with
  | [] => [(k, v)]
  | (k', v') :: d' => if (k =? k')%Z then (k', v) :: d' else (k', v') :: dict_set d' k v
  end.
Fixpoint count_loop (k : nat) (counts : list (Z * Z)) : res (list (Z * Z)) :=
  match k with
  | 0 => Ok counts
  | S k' => c <- count_step counts ;; count_loop k' c
  end.
Definition count_normal_forms (len : Z) (following : option Z) : res Z :=
  if (len =? 0)%Z then Ok 1%Z
  else
    row <- pyget (t_follows tbl) (start following) ;;
    counts <- count_loop (Z.to_nat (len - 1)) (fold_left (fun d x => dict_set d x 1%Z) row []) ;;
    Ok (fold_right Z.add 0%Z (map snd counts)).

(** braid.py:192-200.  [rand.choice(l)] returns an element of [l] (IndexError if
    [l] is empty); [draw k] is the position drawn at the k-th call, reduced
    modulo the length, so every outcome of every call is covered. *)
Definition choice (draw : nat -> nat) (k : nat) (l : list Z) : res Z :=
  get l (draw k mod length l).
Fixpoint sample_loop (draw : nat -> nat) (k : nat) (len : nat) (lst : Z) : res (list Z) :=
  match len with
  | 0 => Ok []
  | S len' =>
      row <- pyget (t_follows tbl) lst ;;
      x <- choice draw k row ;;
      rest <- sample_loop draw (S k) len' x ;;
      Ok (x :: rest)
  end.
Definition sample (draw : nat -> nat) (len : nat) : res (list Z) :=
  sample_loop draw 0 len (t_D tbl).
End Table.

(** ** PermTable.create (braid.py:207-268) *)
Fixpoint list_eqb (l l' : list nat) : bool :=
  match l, l' with
  | [], [] => true
  | x :: r, y :: r' => (x =? y) && list_eqb r r'
  | _, _ => false
  end.

(** [z.left_descent_set() - w.right_descent_set()] *)
Definition descent_diff (w z : list nat) : res (list nat) :=
  lz <- left_descent_set z ;;
  Ok (filter (fun s => negb (existsb (Nat.eqb s) (right_descent_set w))) lz).

(** braid.py:247-262.  [set.pop()] returns an arbitrary element: [pick] may
    depend on the pair (x, y) being filled in and on the number of pops so
    far, i.e. on the whole history. *)
Definition picker := list nat -> list nat -> nat -> list nat -> nat.
Definition picker_ok (pick : picker) : Prop :=
  forall x y k l, l <> [] -> In (pick x y k l) l.
Fixpoint perm_renorm_loop (pick : picker) (gens : list (list nat)) (x y : list nat)
    (fuel k : nat) (w z : list nat) : res (list nat * list nat) :=
  match fuel with
  | 0 => Err OutOfFuel
  | S fuel' =>
      diff <- descent_diff w z ;;
      match diff with
      | [] => Ok (w, z)
      | _ =>
          g <- get gens (pick x y k diff) ;;
          w' <- compose w g ;;
          z' <- compose g z ;;
          perm_renorm_loop pick gens x y fuel' (S k) w' z'
      end
  end.
Definition perm_renorm (pick : picker) (n : nat) (gens : list (list nat)) (x y : list nat) :=
  perm_renorm_loop pick gens x y (S (n * n)) 0 x y.

(** The tables are filled by [table[index[x]][index[y]] = ...] for x, y running
    through [perms]; since [index[perms[i]] = i] this is the same as building
    the rows in order.  [follows[index[x]]] collects the [index[y]] in order. *)
Definition perm_table (pick : picker) (n : nat) : res (nftable (list nat)) :=
  let perms := elements n in
  let idx x := k <- dict_index list_eqb perms x ;; Ok (Z.of_nat k) in
  let w0 := longest_element n in
  coxgens <- cox_gens n ;;
  id <- idx (identity n) ;;
  D <- idx w0 ;;
  gens <- mapM idx coxgens ;;
  lcs <- mapM (fun p => i <- inverse p ;; c <- compose w0 i ;; idx c) perms ;;
  rcs <- mapM (fun p => i <- inverse p ;; c <- compose i w0 ;; idx c) perms ;;
  tau <- mapM (fun p => c <- compose w0 p ;; c <- compose c w0 ;; idx c) perms ;;
  rows <- mapM (fun x => mapM (fun y => perm_renorm pick n coxgens x y) perms) perms ;;
  renorm <- mapM (mapM (fun '(w, z) => i <- idx w ;; j <- idx z ;; Ok (i, j))) rows ;;
  let isnorm := map (fun '(x, row) => map (fun '(y, (w, z)) => list_eqb x w && list_eqb y z)
                                          (combine perms row)) (combine perms rows) in
  follows <- mapM (fun row =>
      l <- mapM (fun '(y, b) => i <- idx y ;;
                   Ok (if (b : bool) && negb (i =? id)%Z && negb (i =? D)%Z then [i] else []))
             (combine perms row) ;;
      Ok (concat l)) isnorm ;;
  words <- mapM (fun p => s <- shortlex p ;; Ok (map (fun i => (Z.of_nat i, 1%Z)) s)) perms ;;
  let ident := map Z.of_nat (seq 0 (length perms)) in
  Ok {| t_n := n; t_order := length perms; t_divs := perms; t_eqb := list_eqb;
        t_id := id; t_D := D; t_gens := gens; t_lc := lcs; t_rc := rcs;
        t_tau_order := 2; t_tau_left := [ident; tau]; t_tau_right := [ident; tau];
        t_renorm := renorm; t_isnorm := isnorm; t_follows := follows; t_word := words |}.

(** braid.py:208-210: the guard on the size. *)
Definition perm_table_create (pick : picker) (n : nat) : res (nftable (list nat)) :=
  if 7 <=? n then Err ValueError else perm_table pick n.

(** ** NFBase (braid.py:337-518).  The class is identified with its table
    function [tb : n -> table]; an object is a record (n, power, factors). *)
Record nfobj := NFObj { o_n : nat; o_pow : Z; o_factors : list Z }.

Section NFBase.
Context {A : Type}.
Variable tb : nat -> res (nftable A).

(** braid.py:357-359: the constructor runs __post_init__. *)
Definition mk (n : nat) (power : Z) (factors : list Z) : res nfobj :=
  t <- tb n ;;
  b <- is_factors_normalised t factors ;;
  _ <- assert_ b ;;
  Ok (NFObj n power factors).

(** braid.py:361-364 *)
Definition nf_identity (n : nat) : res nfobj := mk n 0 [].

(** braid.py:366-370 *)
Definition nf_artin_gens (n : nat) : res (list nfobj) :=
  t <- tb n ;; mapM (fun f => mk n 0 [f]) (t_gens t).

(** braid.py:372-390 *)
Definition canonical_factors (b : nfobj) : res (list A) :=
  t <- tb (o_n b) ;; mapM (pyget (t_divs t)) (o_factors b).
Definition canonical_factor (b : nfobj) (i : Z) : res A :=
  t <- tb (o_n b) ;; f <- pyget (o_factors b) i ;; pyget (t_divs t) f.
Definition canonical_decomposition (b : nfobj) : res (Z * list A) :=
  fs <- canonical_factors b ;; Ok (o_pow b, fs).

(** braid.py:392-402 *)
Definition canonical_length (b : nfobj) : nat := length (o_factors b).
Definition inf (b : nfobj) : Z := o_pow b.
Definition sup (b : nfobj) : Z := (o_pow b + Z.of_nat (length (o_factors b)))%Z.

(** [table.tau_right[k % table.tau_order][x]] *)
Definition tau_right_at (t : nftable A) (k x : Z) : res Z :=
  lookup2 (t_tau_right t) (k mod t_tau_order t) x.

(** braid.py:404-427 *)
Definition nf_mul (a b : nfobj) : res nfobj :=
  if negb (o_n a =? o_n b) then Err ValueError
  else
    t <- tb (o_n a) ;;
    can_concatenate <-
      (if (o_pow b =? 0)%Z then
         match o_factors a, o_factors b with
         | [], _ => Ok true
         | _, [] => Ok true
         | x :: _, y :: _ => lookup2 (t_isnorm t) (last (o_factors a) x) y
         end
       else Ok false) ;;
    if (can_concatenate : bool) then mk (o_n a) (o_pow a) (o_factors a ++ o_factors b)
    else
      conj <- mapM (tau_right_at t (o_pow b)) (o_factors a) ;;
      '(d, f) <- product_normalised_factors t conj (o_factors b) ;;
      mk (o_n a) (o_pow a + o_pow b + d) f.

(** braid.py:429-439 *)
Definition nf_inv (a : nfobj) : res nfobj :=
  t <- tb (o_n a) ;;
  f0 <- mapM (pyget (t_lc t)) (rev (o_factors a)) ;;
  '(dp, f) <- foldM (fun '(dp, f) i =>
      x <- get f i ;;
      y <- tau_right_at t dp x ;;
      Ok ((dp - 1)%Z, upd f i y))
    (rev (seq 0 (length f0))) ((- o_pow a)%Z, f0) ;;
  '(d, g) <- normalise_factors t f ;;
  mk (o_n a) (dp + d) g.

(** braid.py:448-455, the [while exp] loop. *)
Fixpoint pow_loop (fuel : nat) (exp : Z) (acc pow2 : nfobj) : res nfobj :=
  match fuel with
  | 0 => Err OutOfFuel
  | S fuel' =>
      if (exp =? 0)%Z then Ok acc
      else
        acc' <- (if (exp mod 2 =? 1)%Z then nf_mul acc pow2 else Ok acc) ;;
        pow2' <- nf_mul pow2 pow2 ;;
        pow_loop fuel' (exp / 2) acc' pow2'
  end.
(** braid.py:441-455 *)
Definition nf_pow (a : nfobj) (exp : Z) : res nfobj :=
  acc <- nf_identity (o_n a) ;;
  if (exp =? 0)%Z then Ok acc
  else
    pow2 <- (if (0 <? exp)%Z then Ok a else nf_inv a) ;;
    pow_loop (Z.to_nat (Z.log2 (Z.abs exp) + 2)) (Z.abs exp) acc pow2.

(** braid.py:457-464 *)
Definition artin_word (b : nfobj) : res (list (Z * Z)) :=
  t <- tb (o_n b) ;;
  delta <- pyget (t_word t) (t_D t) ;;
  let delta := if (o_pow b <? 0)%Z then map (fun l => (fst l, - snd l)%Z) (rev delta) else delta in
  ws <- mapM (pyget (t_word t)) (o_factors b) ;;
  Ok (concat (repeat delta (Z.abs_nat (o_pow b))) ++ concat ws).

(** braid.py:466-475 *)
Definition magma_artin_word (b : nfobj) : res (list Z) :=
  w <- artin_word b ;;
  _ <- assert_ (forallb (fun l => Z.abs (snd l) =? 1)%Z w) ;;
  Ok (map (fun l => ((fst l + 1) * snd l)%Z) w).

(** braid.py:477-480; i, j non-negative here. *)
Definition substring (b : nfobj) (i j : nat) : res nfobj :=
  _ <- assert_ ((i <=? j) && (j <=? length (o_factors b))) ;;
  mk (o_n b) (o_pow b) (firstn (j - i) (skipn i (o_factors b))).

Definition last_factor (b : nfobj) : option Z :=
  match o_factors b with [] => None | x :: _ => Some (last (o_factors b) x) end.

(** braid.py:482-489 *)
Definition nf_descendants (b : nfobj) : res (list nfobj) :=
  t <- tb (o_n b) ;;
  ss <- normal_forms t 1 (last_factor b) ;;
  mapM (fun s => mk (o_n b) (o_pow b) (o_factors b ++ s)) ss.

(** braid.py:491-497 *)
Definition nf_suffixes (b : nfobj) (len : Z) : res (list nfobj) :=
  t <- tb (o_n b) ;;
  ss <- normal_forms t len (last_factor b) ;;
  mapM (fun s => mk (o_n b) (o_pow b) s) ss.

(** braid.py:499-518 *)
Definition count_all_of_length (n : nat) (len : Z) : res Z :=
  t <- tb n ;; count_normal_forms t len None.
Definition all_of_length (n : nat) (len : Z) (power : Z) : res (list nfobj) :=
  t <- tb n ;;
  fs <- normal_forms t len None ;;
  mapM (fun f => mk n power f) fs.
Definition nf_sample (draw : nat -> nat) (n : nat) (len : nat) : res nfobj :=
  t <- tb n ;; f <- sample t draw len ;; mk n 0 f.

(** braid.py:561-581 (GNF) and 661-691 (DGNF): the same code for both classes. *)
Definition from_artin_word (n : nat) (word : list (Z * Z)) : res nfobj :=
  t <- tb n ;;
  '(factors, dps) <- foldM (fun '(factors, dps) '(i, e) =>
      g <- pyget (t_gens t) i ;;
      if (0 <=? e)%Z
      then Ok (factors ++ repeat g (Z.to_nat e), dps ++ repeat 0%Z (Z.to_nat e))
      else
        c <- pyget (t_lc t) g ;;
        Ok (factors ++ repeat c (Z.abs_nat e), dps ++ repeat (-1)%Z (Z.abs_nat e)))
    word ([], []) ;;
  '(dp, f) <- foldM (fun '(dp, f) i =>
      x <- get f i ;;
      y <- tau_right_at t dp x ;;
      p <- get dps i ;;
      Ok ((dp + p)%Z, upd f i y))
    (rev (seq 0 (length factors))) (0%Z, factors) ;;
  '(d, g) <- normalise_factors t f ;;
  mk n (dp + d) g.

(** braid.py:554-559 and 654-659: product of a sequence of divisors. *)
Definition from_div_seq (size : A -> nat) (n : nat) (ds : list A) : res nfobj :=
  _ <- assert_ (forallb (fun d => n =? size d) ds) ;;
  t <- tb n ;;
  s <- mapM (index t) ds ;;
  '(d, f) <- normalise_factors t s ;;
  mk n d f.
End NFBase.

(** ** GNF and BraidGroup (braid.py:522-602, 711-790) *)
(** GNF._nf_table (braid.py:537-539), for a given behaviour of set.pop. *)
Definition gtb (pick : picker) : nat -> res (nftable (list nat)) := perm_table_create pick.

Section GNF.
Variable tb : nat -> res (nftable (list nat)).   (* _nf_table *)

Definition gnf_from_perm_seq (n : nat) (perms : list (list nat)) : res nfobj :=
  from_div_seq tb (@length nat) n perms.
Definition gnf_from_perm (perm : list nat) : res nfobj :=
  gnf_from_perm_seq (length perm) [perm].

(** braid.py:719-720: BraidGroup.__post_init__ *)
Definition braid_group (n : Z) : res nat := _ <- assert_ (1 <=? n)%Z ;; Ok (Z.to_nat n).

(** braid.py:726-730 *)
Definition bg_gens (n : nat) : res (list nfobj) :=
  t <- tb n ;;
  mapM (fun i => g <- get (t_gens t) i ;; mk tb n 0 [g]) (seq 0 (n - 1)).
(** braid.py:745-748 *)
Definition bg_invs (n : nat) : res (list nfobj) :=
  gs <- bg_gens n ;; mapM (nf_inv tb) gs.

(** braid.py:750-761 *)
Definition positive_lift (n : nat) (perm : list nat) : res nfobj :=
  if negb (length perm =? n) then Err ValueError
  else if is_identity perm then mk tb n 0 []
  else if is_longest_element perm then mk tb n 1 []
  else t <- tb n ;; k <- index t perm ;; mk tb n 0 [k].

(** braid.py:777-780.  [reduce(mul, lifts, id)] then multiply by D^inf. *)
Definition from_gnf_pair (n : nat) (inf : Z) (perm_words : list (list nat)) : res nfobj :=
  d <- mk tb n inf [] ;;
  id <- mk tb n 0 [] ;;
  p <- foldM (fun acc w => x <- positive_lift n w ;; nf_mul tb acc x) perm_words id ;;
  nf_mul tb d p.

(** braid.py:783-785: the [power] argument is dropped. *)
Definition all_of_garside_length (n : nat) (len : Z) (power : Z) : res (list nfobj) :=
  all_of_length tb n len 0.
Definition count_all_of_garside_length (n : nat) (len : Z) : res Z :=
  count_all_of_length tb n len.
End GNF.
