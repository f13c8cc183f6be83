(** ModelTracker.v – model of /repo/peyl/bucketing.py, of the Tracker of
    /repo/peyl/braidsearch.py and of the loop of /repo/search.py.

    - A braid is an [nfobj], an image a [parr] (ModelPolymat.v), weights are
      rationals: floating point rounding and NaN are not modelled.
    - rand.random() and rand.randrange/randint are oracles: the calls are labelled
      by numbers, [rnd k] is the result of the call of random() with label k and
      [rint k], reduced to the requested range, that of randrange/randint, so every
      outcome of every call is covered.  The next unused label is kept in the
      tracker ([draws]); an offer to a full bucket of bucketing.py uses two labels,
      one for random() and one for the randrange that may follow.
    - A dict is the list of its items in insertion order.
    - heapq is modelled by its contract: [heap[0]] is the least entry, heappop
      removes it, heappush adds one; the heap is the sorted list of its entries.
    - DataFrames are only built for display and for the selection in search.py,
      which is modelled on the list of rows; stats(), bucket_stats and
      hash_bucket are not modelled. *)
From Verif Require Import Base ModelPerm ModelBraid ModelPoly ModelMatrix ModelTL ModelTLMor ModelRep ModelPolymat ModelPolyRep.
From Coq Require Import QArith.
Local Open Scope nat_scope.

(** bucketing.py:75-87 and braidsearch.py:116-128 (the same code).  The generator
    is modelled by the list of the chunks it yields. *)
Fixpoint batched_loop {X} (k : nat) (xs chunk : list X) : list (list X) :=
  match xs with
  | [] => if 0 <? length chunk then [chunk] else []
  | x :: xs' =>
      let chunk := chunk ++ [x] in
      if length chunk =? k then chunk :: batched_loop k xs' [] else batched_loop k xs' chunk
  end.
Definition batched {X} (xs : list X) (chunk_length : Z) : res (list (list X)) :=
  _ <- assert_ (1 <=? chunk_length)%Z ;; Ok (batched_loop (Z.to_nat chunk_length) xs []).

(** dicts *)
Section Dict.
Context {K V : Type} (keqb : K -> K -> bool).
Fixpoint dget (d : list (K * V)) (k : K) : option V :=
  match d with [] => None | (k', v) :: d' => if keqb k k' then Some v else dget d' k end.
Fixpoint dset (d : list (K * V)) (k : K) (v : V) : list (K * V) :=
  match d with [] => [(k, v)] | (k', v') :: d' => if keqb k k' then (k', v) :: d' else (k', v') :: dset d' k v end.
Definition ddel (d : list (K * V)) (k : K) : list (K * V) := filter (fun kv => negb (keqb k (fst kv))) d.
Definition dgetE (d : list (K * V)) (k : K) : res V := match dget d k with Some v => Ok v | None => Err KeyError end.
End Dict.
Fixpoint tag_eqb (a b : list Z) : bool :=
  match a, b with [], [] => true | x :: a', y :: b' => (x =? y)%Z && tag_eqb a' b' | _, _ => false end.
(** [==] of two GNF objects: a frozen dataclass *)
Definition nf_eqb (a b : nfobj) : bool := (o_n a =? o_n b) && (o_pow a =? o_pow b)%Z && tag_eqb (o_factors a) (o_factors b).

(** [A[idx] = x] for a batch A with a one-axis prefix and a single matrix x; numpy
    broadcasts axes of length 1 and casts to the dtype of A *)
Definition set_item (A : parr) (idx : nat) (x : parr) : res parr :=
  if negb (idx <? length (ablocks A)) then Err IndexError
  else if ((aI x =? aI A) || (aI x =? 1)) && ((aJ x =? aJ A) || (aJ x =? 1)) && ((aD x =? aD A) || (aD x =? 1)) then
    Ok (mkA (apre A) (aI A) (aJ A) (aD A) (adt A)
      (upd (ablocks A) idx (btab (aI A) (aJ A) (aD A) (fun i j d => wrap (adt A)
        (bget (aJ x) (aD x) (block x []) (if aI x =? 1 then 0 else i) (if aJ x =? 1 then 0 else j) (if aD x =? 1 then 0 else d))))))
  else Err ValueError.
(** [A[:k]] *)
Definition take_items (A : parr) (k : nat) : parr :=
  mkA [Nat.min k (length (ablocks A))] (aI A) (aJ A) (aD A) (adt A) (firstn k (ablocks A)).
Definition zeros_batch (cap I J D : nat) (t : dtype) : parr := mkA [cap] I J D t (repeat (repeat 0%Z (I * J * D)) cap).

(** ** bucketing.py *)
(** bucketing.py:33-72.  A class name is a number, 0 for GNF and 1 for DGNF; the
    braids of one call are of one class.  Other statistics may be supplied. *)
Inductive stat :=
| NFKind | CanonicalLength | ProjectiveLength | NonzeroTerms
| OtherStat (calculate : list nfobj -> parr -> res (list Z)).
Definition calculate (cls : Z) (s : stat) (braids : list nfobj) (images : parr) : res (list Z) :=
  match s with
  | NFKind => Ok (map (fun _ => cls) braids)
  | CanonicalLength => Ok (map (fun b => Z.of_nat (canonical_length b)) braids)
  | ProjectiveLength => projlen images
  | NonzeroTerms => Ok (map Z.of_nat (nz_terms images))
  | OtherStat f => f braids images
  end.

(** bucketing.py:90-107 *)
Record bucket := mkB {
  b_tag : list Z; b_capacity : nat;
  b_braids : list nfobj; b_images : parr; b_weights : list Q;
  b_count : nat; b_weight : Q; b_heap : list (Q * nat) }.
(** bucketing.py:109-120; a negative capacity (ValueError in numpy) is not modelled *)
Definition bucket_create (tag : list Z) (capacity : nat) (image : parr) : bucket :=
  mkB tag capacity [] (zeros_batch capacity (aI image) (aJ image) (aD image) (adt image)) (repeat 0%Q capacity) 0 0%Q [].
(** bucketing.py:122-131 *)
Definition b_size (b : bucket) : nat := length (b_braids b).
Definition b_is_full (b : bucket) : bool := length (b_braids b) =? b_capacity b.
Definition braids_images (b : bucket) : list nfobj * parr := (b_braids b, take_items (b_images b) (b_size b)).
(** bucketing.py:133-136 *)
Definition show_reservoir (b : bucket) (weight : Q) : bucket :=
  mkB (b_tag b) (b_capacity b) (b_braids b) (b_images b) (b_weights b) (b_count b + 1) (b_weight b + weight) (b_heap b).
(** bucketing.py:138-148 *)
Definition append_braid (b : bucket) (braid : nfobj) (image : parr) (weight : Q) : res (nat * bucket) :=
  if b_size b =? b_capacity b then Err ValueError
  else
    let index := b_size b in
    images <- set_item (b_images b) index image ;;
    weights <- set_ (b_weights b) index weight ;;
    Ok (index, mkB (b_tag b) (b_capacity b) (b_braids b ++ [braid]) images weights (b_count b) (b_weight b) (b_heap b)).
(** bucketing.py:150-157 *)
Definition replace_braid (b : bucket) (index : nat) (braid : nfobj) (image : parr) (weight : Q) : res bucket :=
  if negb (index <? b_size b) then Err ValueError
  else
    braids <- set_ (b_braids b) index braid ;;
    images <- set_item (b_images b) index image ;;
    weights <- set_ (b_weights b) index weight ;;
    Ok (mkB (b_tag b) (b_capacity b) braids images weights (b_count b) (b_weight b) (b_heap b)).

(** heapq on pairs (weight, index), compared lexicographically *)
Definition heap_le (a b : Q * nat) : bool :=
  match Qcompare (fst a) (fst b) with Lt => true | Eq => snd a <=? snd b | Gt => false end.
Fixpoint heappush (h : list (Q * nat)) (x : Q * nat) : list (Q * nat) :=
  match h with [] => [x] | y :: h' => if heap_le x y then x :: h else y :: heappush h' x end.
Definition heap_top (h : list (Q * nat)) : res (Q * nat) := get h 0.
Definition heappop (h : list (Q * nat)) : res (list (Q * nat)) :=
  match h with [] => Err IndexError | _ :: h' => Ok h' end.
Definition with_heap (b : bucket) (h : list (Q * nat)) : bucket :=
  mkB (b_tag b) (b_capacity b) (b_braids b) (b_images b) (b_weights b) (b_count b) (b_weight b) h.

Inductive method := GreedyFirst | Uniform | AChao | EvictMin.

(** bucketing.py:178-216 *)
Record tracker := mkT {
  tr_capacity : nat; tr_stats : list stat; tr_method : method;
  tr_weight : option (list nfobj -> parr -> res (list Q));
  tr_buckets : list (list Z * bucket); tr_draws : nat }.
Definition is_length (s : stat) : bool := match s with CanonicalLength => true | _ => false end.
Definition is_projlen (s : stat) : bool := match s with ProjectiveLength => true | _ => false end.
Definition tracker_init (capacity : nat) (stats : list stat) (m : method) (w : option (list nfobj -> parr -> res (list Q))) : res tracker :=
  _ <- assert_ (existsb is_length stats) ;;
  _ <- assert_ (existsb is_projlen stats) ;;
  Ok (mkT capacity stats m w [] 0).
Definition with_buckets (tr : tracker) (bs : list (list Z * bucket)) (draws : nat) : tracker :=
  mkT (tr_capacity tr) (tr_stats tr) (tr_method tr) (tr_weight tr) bs draws.
(** bucketing.py:219-222 *)
Definition discard_bucket (tr : tracker) (tag : list Z) : tracker :=
  with_buckets tr (ddel tag_eqb (tr_buckets tr) tag) (tr_draws tr).

Section Rand.
Variables (cls : Z) (rnd : nat -> Q) (rint : nat -> nat).
(** rand.randrange(0, m) *)
Definition randrange (k m : nat) : res nat := if m =? 0 then Err ValueError else Ok (rint k mod m).
(** bucketing.py:316-346: the match statement, on a bucket that has been shown the
    new element; returns the bucket and the next unused label *)
Definition place (m : method) (k : nat) (b : bucket) (braid : nfobj) (image : parr) (weight : Q) : res (bucket * nat) :=
  match m with
  | GreedyFirst =>
      if negb (b_is_full b) then '(_, b) <- append_braid b braid image weight ;; Ok (b, k) else Ok (b, k)
  | Uniform =>
      if negb (b_is_full b) then '(_, b) <- append_braid b braid image weight ;; Ok (b, k)
      else if b_count b =? 0 then Err ZeroDivisionError
      else if Qle_bool (rnd k) (inject_Z (Z.of_nat (b_capacity b)) / inject_Z (Z.of_nat (b_count b))) then
        i <- randrange (k + 1) (b_capacity b) ;;
        b <- replace_braid b i braid image weight ;; Ok (b, k + 2)
      else Ok (b, k + 2)
  | AChao =>
      if negb (b_is_full b) then '(_, b) <- append_braid b braid image weight ;; Ok (b, k)
      else if Qeq_bool (b_weight b) 0 then Err ZeroDivisionError
      else if Qle_bool (rnd k) (weight / b_weight b) then
        i <- randrange (k + 1) (b_capacity b) ;;
        b <- replace_braid b i braid image weight ;; Ok (b, k + 2)
      else Ok (b, k + 2)
  | EvictMin =>
      if negb (b_is_full b) then
        '(i, b) <- append_braid b braid image weight ;;
        Ok (with_heap b (heappush (b_heap b) (weight, i)), k)
      else
        '(min_weight, min_idx) <- heap_top (b_heap b) ;;
        if negb (Qle_bool weight min_weight) then
          h <- heappop (b_heap b) ;;
          b <- replace_braid (with_heap b (heappush h (weight, min_idx))) min_idx braid image weight ;; Ok (b, k)
        else Ok (b, k)
  end.
(** bucketing.py:299-346: one iteration *)
Definition offer (tr : tracker) (braid : nfobj) (image : parr) (tag : list Z) (weight : Q) : res tracker :=
  let bs := match dget tag_eqb (tr_buckets tr) tag with
            | Some _ => tr_buckets tr
            | None => dset tag_eqb (tr_buckets tr) tag (bucket_create tag (tr_capacity tr) image)
            end in
  b <- dgetE tag_eqb bs tag ;;
  '(b, k) <- place (tr_method tr) (tr_draws tr) (show_reservoir b weight) braid image weight ;;
  Ok (with_buckets tr (dset tag_eqb bs tag b) k).
(** bucketing.py:286-346 *)
Definition add_braids_images (tr : tracker) (braids : list nfobj) (images : parr) : res tracker :=
  _ <- assert_ (match apre images with [k] => length braids =? k | _ => false end) ;;
  stats <- mapM (fun s => calculate cls s braids images) (tr_stats tr) ;;
  tags <- mapM (fun i => mapM (fun st => get st i) stats) (seq 0 (length braids)) ;;
  weights <- (match tr_weight tr with Some f => f braids images | None => Ok (repeat 1%Q (length braids)) end) ;;
  '(starts, ends) <- proj_starts_ends images ;;
  foldM (fun tr i =>
      braid <- get braids i ;;
      x <- arr_item images (Z.of_nat i) ;;
      s <- get starts i ;;
      e <- get ends i ;;
      tag <- get tags i ;;
      weight <- get weights i ;;
      offer tr braid (slice_deg x s e) tag weight)
    (seq 0 (length braids)) tr.

(** what a client does: batches of additions and discards *)
Inductive op := Add (braids : list nfobj) (images : parr) | Discard (tag : list Z).
Definition apply_op (tr : tracker) (o : op) : res tracker :=
  match o with Add bs im => add_braids_images tr bs im | Discard t => Ok (discard_bucket tr t) end.
Definition run_ops (tr : tracker) (os : list op) : res tracker := foldM apply_op os tr.
End Rand.

(** ** nf_descendants and bootstrap_exhaustive of bucketing.py *)
(** [A[idxs]] (fancy indexing of a batch) *)
Definition take_list (A : parr) (idxs : list nat) : res parr :=
  bs <- mapM (get (ablocks A)) idxs ;; Ok (mkA [length idxs] (aI A) (aJ A) (aD A) (adt A) bs).
(** itertools.groupby on consecutive equal keys *)
Fixpoint groupby {X} (key : X -> Z) (l : list X) : list (list X) :=
  match l with
  | [] => []
  | x :: l' =>
      match groupby key l' with
      | (y :: g) :: gs => if (key x =? key y)%Z then (x :: y :: g) :: gs else [x] :: (y :: g) :: gs
      | gs => [x] :: gs
      end
  end.
(** [A[None, ...]] and [A[:, None, ...]] for a batch *)
Definition outer_left (A : parr) : parr := mkA (1 :: apre A) (aI A) (aJ A) (aD A) (adt A) (ablocks A).
Definition outer_right (A : parr) : parr := mkA (apre A ++ [1]) (aI A) (aJ A) (aD A) (adt A) (ablocks A).
(** [A.reshape((-1, *A.shape[2:]))] for a two-axis prefix *)
Definition flatten (A : parr) : parr := mkA [length (ablocks A)] (aI A) (aJ A) (aD A) (adt A) (ablocks A).

Section Desc.
Context {A : Type}.
Variables (cls : Z) (rnd : nat -> Q) (rint : nat -> nat) (tb : nat -> res (nftable A)) (deqb : A -> A -> bool) (R : rep).
(** np.argsort: any permutation of the positions that sorts the keys (the default
    sort is not stable) *)
Variable argsort : list Z -> list nat.
Definition cache := list ((Z * A) * (list nfobj * parr)).
Definition key_eqb (a b : Z * A) : bool := (fst a =? fst b)%Z && deqb (snd a) (snd b).
Definition last_of (b : nfobj) : res Z := pyget (o_factors b) (-1).
(** bucketing.py:370-387: one group; returns the offered braids and images *)
Definition group_offer (c : cache) (len : Z) (braids : list nfobj) (left : parr) : res (cache * (list nfobj * parr)) :=
  b0 <- get braids 0 ;;
  last_factor <- canonical_factor tb b0 (-1) ;;
  '(c, (suffixes, rights)) <-
    (match dget key_eqb c (len, last_factor) with
     | Some sr => Ok (c, sr)
     | None =>
         suffixes <- nf_suffixes tb b0 len ;;
         rights <- polymat_evaluate_braids_of_same_length tb R suffixes ;;
         Ok (dset key_eqb c (len, last_factor) (suffixes, rights), (suffixes, rights))
     end) ;;
  images <- polymat_mul (rep_p R) (outer_left left) (outer_right rights) ;;
  prods <- mapM (fun '(s, b) => nf_mul tb b s) (list_prod suffixes braids) ;;
  Ok (c, (prods, flatten images)).
(** bucketing.py:349-387 *)
Definition tracker_nf_descendants (c : cache) (tr : tracker) (tag : list Z) (len : Z) : res (cache * tracker) :=
  b <- dgetE tag_eqb (tr_buckets tr) tag ;;
  let '(braids, images) := braids_images b in
  lasts <- mapM last_of braids ;;
  let order := argsort lasts in
  sorted_braids <- mapM (get braids) order ;;
  sorted_images <- take_list images order ;;
  keys <- mapM last_of sorted_braids ;;
  foldM (fun '(c, tr) idxs =>
      bs <- mapM (get sorted_braids) idxs ;;
      left <- take_list sorted_images idxs ;;
      '(c, (prods, im)) <- group_offer c len bs left ;;
      tr <- add_braids_images cls rnd rint tr prods im ;;
      Ok (c, tr))
    (groupby (fun i => nth i keys 0%Z) (seq 0 (length sorted_braids))) (c, tr).
(** bucketing.py:390-398 *)
Definition tracker_bootstrap (tr : tracker) (n : nat) (upto : Z) : res tracker :=
  foldM (fun tr len =>
      all <- all_of_length tb n (Z.of_nat len) 0 ;;
      chunks <- batched all 10000 ;;
      foldM (fun tr braids =>
          images <- polymat_evaluate_braids_of_same_length tb R braids ;;
          add_braids_images cls rnd rint tr braids images) chunks tr)
    (seq 1 (Z.to_nat upto)) tr.
End Desc.

(** ** braidsearch.py: Tracker (lines 308-524) *)
Definition stag := (nat * Z)%type.
Definition stag_eqb (a b : stag) : bool := (fst a =? fst b) && (snd a =? snd b)%Z.
(** the entries of bucket_braids, bucket_images and bucket_braid_set for one bucket *)
Record sbucket := mkSB { sb_braids : list nfobj; sb_images : parr; sb_set : list nfobj }.
(** braidsearch.py:309-347.  [st_rand] is [rand is not None]; minimise is not
    modelled: its result is not used.  bucket_reservoir_counts survives discards. *)
Record strk := mkST { st_size : nat; st_rand : bool; st_buckets : list (stag * sbucket); st_counts : list (stag * nat); st_draws : nat }.
Definition strk_init (size : nat) (rand : bool) : strk := mkST size rand [] [] 0.
(** braidsearch.py:350-361 *)
Definition st_discard (s : strk) (tag : stag) : strk :=
  mkST (st_size s) (st_rand s) (ddel stag_eqb (st_buckets s) tag) (st_counts s) (st_draws s).
(** braidsearch.py:391-395 *)
Definition st_braids_images (s : strk) (tag : stag) : res (list nfobj * parr) :=
  match dget stag_eqb (st_buckets s) tag with
  | Some b => Ok (sb_braids b, take_items (sb_images b) (length (sb_braids b)))
  | None => Err AssertionError
  end.

Section SRand.
Variable rint : nat -> nat.
(** rand.randint(1, m), m >= 1 *)
Definition randint1 (k m : nat) : nat := 1 + rint k mod m.
(** braidsearch.py:441-473: one iteration; also returns whether i is appended to kept *)
Definition st_offer (s : strk) (braid : nfobj) (image : parr) (tag : stag) : res strk :=
  match dget stag_eqb (st_buckets s) tag with
  | None =>
      image <- projectivise image ;;
      images <- set_item (zeros_batch (st_size s) (aI image) (aJ image) (aD image) (adt image)) 0 image ;;
      Ok (mkST (st_size s) (st_rand s) (dset stag_eqb (st_buckets s) tag (mkSB [braid] images [braid]))
            (dset stag_eqb (st_counts s) tag 1) (st_draws s))
  | Some b =>
      c <- dgetE stag_eqb (st_counts s) tag ;;
      let counts := dset stag_eqb (st_counts s) tag (c + 1) in
      if length (sb_braids b) =? st_size s then
        if st_rand s then
          let j := randint1 (st_draws s) (c + 1) in
          if j <=? st_size s then
            braids <- set_ (sb_braids b) (j - 1) braid ;;
            image <- projectivise image ;;
            images <- set_item (sb_images b) (j - 1) image ;;
            Ok (mkST (st_size s) (st_rand s) (dset stag_eqb (st_buckets s) tag (mkSB braids images (sb_set b))) counts (st_draws s + 1))
          else Ok (mkST (st_size s) (st_rand s) (st_buckets s) counts (st_draws s + 1))
        else Ok (mkST (st_size s) (st_rand s) (st_buckets s) counts (st_draws s))
      else if existsb (nf_eqb braid) (sb_set b) then Ok (mkST (st_size s) (st_rand s) (st_buckets s) counts (st_draws s))
      else
        image <- projectivise image ;;
        images <- set_item (sb_images b) (length (sb_braids b)) image ;;
        Ok (mkST (st_size s) (st_rand s) (dset stag_eqb (st_buckets s) tag (mkSB (sb_braids b ++ [braid]) images (sb_set b ++ [braid]))) counts (st_draws s))
  end.
(** braidsearch.py:364-381: what braid_image_stats requires (the assertion of
    projrank, polymat.py:246-255, is that every image has a constant term) *)
Definition image_stats_check (braids : list nfobj) (images : parr) : res unit :=
  _ <- assert_ (match apre images with [k] => k =? length braids | _ => false end) ;;
  vm <- valmin images ;;
  assert_ (forallb (Z.eqb 0) vm).
(** braidsearch.py:426-478.  The criterion is a function of the DataFrame, here of
    the braids and images it is computed from. *)
Variable criterion : list nfobj -> parr -> res (list bool).
Definition st_add (s : strk) (braids : list nfobj) (images : parr) : res strk :=
  _ <- image_stats_check braids images ;;
  keep <- criterion braids images ;;
  projlens <- projlen images ;;
  foldM (fun s i =>
      braid <- get braids i ;;
      image <- arr_item images (Z.of_nat i) ;;
      pl <- get projlens i ;;
      st_offer s braid image (canonical_length braid, pl))
    (filter (fun i => nth i keep false) (seq 0 (length keep))) s.

Inductive sop := SAdd (braids : list nfobj) (images : parr) | SDiscard (tag : stag).
Definition st_apply (s : strk) (o : sop) : res strk :=
  match o with SAdd bs im => st_add s bs im | SDiscard t => Ok (st_discard s t) end.
Definition st_run (s : strk) (os : list sop) : res strk := foldM st_apply os s.

Variables (tb : nat -> res (nftable (list nat))) (S : jsum).
(** braidsearch.py:485-495; images1[:, None] and images2[None, :] *)
Definition st_bucket_product (s : strk) (tag1 tag2 : stag) : res strk :=
  '(braids1, images1) <- st_braids_images s tag1 ;;
  '(braids2, images2) <- st_braids_images s tag2 ;;
  braids <- mapM (fun '(a, b) => nf_mul tb a b) (list_prod braids1 braids2) ;;
  images <- js_mul S (outer_right images1) (outer_left images2) ;;
  st_add s braids (flatten images).
(** braidsearch.py:498-506.  The images of the bucket are read again for every
    batch, after the additions of the previous ones. *)
Definition st_nf_descendants (s : strk) (tag : stag) (len : Z) : res strk :=
  b <- dgetE stag_eqb (st_buckets s) tag ;;
  all_pairs <- mapM (fun '(i, braid) => ss <- nf_suffixes tb braid len ;; Ok (map (fun x => (i, braid, x)) ss))
    (combine (seq 0 (length (sb_braids b))) (sb_braids b)) ;;
  chunks <- batched (concat all_pairs) 1000 ;;
  foldM (fun s pairs =>
      b <- dgetE stag_eqb (st_buckets s) tag ;;
      ls <- mapM (fun '(i, _, _) => arr_item (sb_images b) (Z.of_nat i)) pairs ;;
      left <- pack ls ;;
      rights <- js_evaluate_prefixes tb S (map (fun '(_, _, x) => x) pairs) ;;
      foldM (fun s i =>
          right <- get rights i ;;
          images <- js_mul S left right ;;
          braids <- mapM (fun '(_, braid, x) => y <- substring tb x 0 i ;; nf_mul tb braid y) pairs ;;
          st_add s braids images)
        (seq 1 (Z.to_nat len)) s)
    chunks s.
(** braidsearch.py:518-524 *)
Definition st_bootstrap (s : strk) (upto : Z) : res strk :=
  foldM (fun s len =>
      all <- all_of_garside_length tb (js_n S) (Z.of_nat len) 0 ;;
      chunks <- batched all 10000 ;;
      foldM (fun s braids =>
          images <- js_evaluate_same_length tb S braids ;;
          st_add s braids images) chunks s)
    (seq 1 (Z.to_nat upto)) s.

(** ** search.py:89-153 *)
(** a row (bucket, count) of track.stats(); the rows come in the order of the set
    self.buckets, which is arbitrary: [order] *)
Variable order : nat -> list (stag * nat) -> list (stag * nat).
Definition stats_rows (s : strk) : list (stag * nat) := map (fun '(t, b) => (t, length (sb_braids b))) (st_buckets s).
(** sort_values('projlen'), for rows of one length (their projlens are distinct) *)
Fixpoint insert_row (x : stag * nat) (l : list (stag * nat)) : list (stag * nat) :=
  match l with [] => [x] | y :: l' => if (snd (fst x) <=? snd (fst y))%Z then x :: l else y :: insert_row x l' end.
Definition sort_rows (l : list (stag * nat)) : list (stag * nat) := fold_right insert_row [] l.
(** [rows[rows['count'].cumsum() <= limit]] *)
Fixpoint cumsum_le (limit : Z) (acc : nat) (l : list (stag * nat)) : list (stag * nat) :=
  match l with
  | [] => []
  | x :: l' => let acc := acc + snd x in
      if (Z.of_nat acc <=? limit)%Z then x :: cumsum_le limit acc l' else cumsum_le limit acc l'
  end.
Definition selection (rows : list (stag * nat)) (len : nat) (limit : Z) : list (stag * nat) :=
  cumsum_le limit 0 (sort_rows (filter (fun r => fst (fst r) =? len) rows)).
(** search.py:89-149, one iteration without the printing: the selected buckets,
    the braids written to the database (with the bucket they come from), and the
    tracker afterwards *)
Definition search_step (s : strk) (k : nat) (use_best save_best step_size : Z) : res (list stag * list (stag * list nfobj) * strk) :=
  let rows := order k (stats_rows s) in
  let selected := map fst (selection rows k use_best) in
  saved <- mapM (fun t => b <- dgetE stag_eqb (st_buckets s) t ;; Ok (t, sb_braids b)) (map fst (selection rows k save_best)) ;;
  s' <- foldM (fun s t => st_nf_descendants s t step_size) selected s ;;
  Ok (selected, saved, fold_left st_discard (map fst (filter (fun r => fst (fst r) <=? k) rows)) s').
(** search.py:57-79 and 89: [count] iterations of the main loop *)
Definition search_steps (s : strk) (first : Z) (count : nat) (use_best save_best step_size : Z) : res (list (list (stag * list nfobj)) * strk) :=
  foldM (fun '(saves, s) i =>
      let k := (first + Z.of_nat i)%Z in
      if (k <? 0)%Z then Ok (saves ++ [[]], s)
      else '(_, saved, s) <- search_step s (Z.to_nat k) use_best save_best step_size ;; Ok (saves ++ [saved], s))
    (seq 0 count) ([], s).
End SRand.
