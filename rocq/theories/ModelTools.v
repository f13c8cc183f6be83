(** ModelTools.v – further methods of the trackers and helpers of braidsearch.py. *)
From Verif Require Import Base ModelPoly ModelMatrix ModelPolymat ModelPerm ModelBraid ModelRep ModelPolyRep ModelTracker.
From Coq Require Import QArith.
Local Open Scope nat_scope.

Section Sub.
Variables (rint : nat -> nat) (crit : list nfobj -> parr -> res (list bool)) (tb : nat -> res (nftable (list nat))) (S : jsum).
(** braidsearch.py:508-516.  [braids] is the list object of the bucket, which the additions
    change in place; the model reads it again from the state wherever the code iterates
    over it.  range(1, length-1) and range(i+2, length-1). *)
Definition st_substrings (s : strk) (tag : stag) : res strk :=
  _ <- assert_ (match dget stag_eqb (st_buckets s) tag with Some _ => true | None => false end) ;;
  b <- dgetE stag_eqb (st_buckets s) tag ;;
  b0 <- get (sb_braids b) 0 ;;
  let len := length (o_factors b0) in
  foldM (fun s i =>
      b <- dgetE stag_eqb (st_buckets s) tag ;;
      tails <- mapM (fun x => substring tb x i len) (sb_braids b) ;;
      images <- js_evaluate_prefixes tb S tails ;;
      foldM (fun s j =>
          b <- dgetE stag_eqb (st_buckets s) tag ;;
          braids <- mapM (fun x => substring tb x i j) (sb_braids b) ;;
          im <- get images (j - i) ;;
          st_add rint crit s braids im)
        (seq (i + 2) (len - 1 - (i + 2))) s)
    (seq 1 (len - 2)) s.
End Sub.

(** ** reports *)
(** x / m for a float x and an int m; None stands for nan, inf or an error *)
Definition qdiv (x : Q) (m : nat) : option Q := if m =? 0 then None else Some (x / inject_Z (Z.of_nat m))%Q.
Definition qsum (l : list Q) : Q := fold_left Qplus l 0%Q.
(** bucketing.py:241-264.  A row is (bucket, count, the columns of the tag,
    reservoir_count, reservoir_weight_avg, reservoir_weight_avg_seen).  Floats are
    rationals, as everywhere in ModelTracker.v. *)
Definition trow : Type := list Z * nat * list Z * nat * option Q * option Q.
Definition tracker_stats (tr : tracker) : list trow :=
  map (fun '(tag, b) => (b_tag b, b_size b, tag, b_count b, qdiv (qsum (b_weights b)) (b_size b), qdiv (b_weight b) (b_count b))) (tr_buckets tr).
(** bucketing.py:213-237, the columns of the statistics that define the buckets
    (other_braidstats are left out, and so is the column of the braids) *)
Definition tracker_bucket_stats (cls : Z) (tr : tracker) (tag : list Z) : res (list (list Z)) :=
  match dget tag_eqb (tr_buckets tr) tag with
  | None => Err ValueError
  | Some b => mapM (fun st => calculate cls st (fst (braids_images b)) (snd (braids_images b))) (tr_stats tr)
  end.
(** braidsearch.py:383-395.  A row is (bucket and its two columns, count, rhogap/length,
    reservoir_count); [st_buckets] has one entry for each element of the set.
    The dict get gives None for a missing key. *)
Definition st_stats (s : strk) : list (stag * nat * option Q * option nat) :=
  map (fun '(tag, b) => (tag, length (sb_braids b), qdiv (inject_Z (snd tag - 1) / 2)%Q (fst tag), if st_rand s then dget stag_eqb (st_counts s) tag else None)) (st_buckets s).
(** braidsearch.py:396-404 *)
Definition st_stats_reservoir (s : strk) : list (stag * nat) := st_counts s.

(** ** validation and hashing of buckets *)
(** the shape of the numpy array, and the cell at a multi-index *)
Definition full_shape (A : parr) : list nat := apre A ++ [aI A; aJ A; aD A].
Definition cell (A : parr) (idx : list nat) : Z := nth (ravel (full_shape A) idx) (concat (ablocks A)) 0%Z.
(** np.all(A == B): the comparison broadcasts, shapes that do not fit are a ValueError
    (numpy >= 1.25; pyproject.toml asks for 1.26) *)
Definition np_all_eq (A B : parr) : res bool :=
  s <- broadcast_shapes (full_shape A) (full_shape B) ;;
  Ok (forallb (fun idx => (cell A (bidx (full_shape A) idx) =? cell B (bidx (full_shape B) idx))%Z) (indices s)).
(** bucketing.py:274-281: the first braid whose image is wrong.  [None] if there is
    none; the printing is not modelled. *)
Fixpoint first_wrong (images actual : parr) (i : nat) (braids : list nfobj) : res (option (nfobj * parr * parr)) :=
  match braids with
  | [] => Ok None
  | b :: bs =>
      x <- arr_item images (Z.of_nat i) ;;
      y <- arr_item actual (Z.of_nat i) ;;
      e <- np_all_eq x y ;;
      if e then first_wrong images actual (i + 1) bs else Ok (Some (b, y, x))
  end.
(** bucketing.py:267-283, with [evaluate] for polymat_evaluate_braids_of_same_length of
    the representation.  [None] is the string "All bucket entries are sound.". *)
Fixpoint validate (evaluate : list nfobj -> res parr) (buckets : list (list nfobj * parr)) : res (option (nfobj * parr * parr)) :=
  match buckets with
  | [] => Ok None
  | (braids, images) :: rest =>
      actual <- evaluate braids ;;
      e <- np_all_eq images actual ;;
      if e then validate evaluate rest
      else
        w <- first_wrong images actual 0 braids ;;
        match w with Some x => Ok (Some x) | None => validate evaluate rest end
  end.
Definition valiate_buckets (evaluate : list nfobj -> res parr) (tr : tracker) : res (option (nfobj * parr * parr)) :=
  validate evaluate (map (fun '(_, b) => braids_images b) (tr_buckets tr)).
(** braidsearch.py:407-423.  line 411 reads self.p, which the Tracker does not have,
    before anything is evaluated (BraidGroup(n) asserts n >= 1). *)
Definition st_valiate_buckets (s : strk) : res (option (nfobj * parr * parr)) :=
  match st_buckets s with
  | [] => Ok None
  | (tag, _) :: _ =>
      '(braids, _) <- st_braids_images s tag ;;
      b0 <- get braids 0 ;;
      _ <- assert_ (1 <=? o_n b0) ;;
      Err AttributeError
  end.
(** bucketing.py:401-414.  [hash] is Python's hash of the bytes of one image, i.e. of
    its dtype and cells. *)
Definition hash_bucket (hash : dtype -> list Z -> Z) (tr : tracker) (tag : list Z) : res (list (Z * list nfobj)) :=
  match dget tag_eqb (tr_buckets tr) tag with
  | None => Err AssertionError
  | Some b =>
      let '(braids, images) := braids_images b in
      foldM (fun hashes i =>
          x <- arr_item images (Z.of_nat i) ;;
          let h := hash (adt x) (concat (ablocks x)) in
          let hashes := match dget Z.eqb hashes h with None => dset Z.eqb hashes h [] | Some _ => hashes end in
          l <- dgetE Z.eqb hashes h ;;
          braid <- get braids i ;;
          Ok (dset Z.eqb hashes h (l ++ [braid])))
        (seq 0 (length braids)) []
  end.

(** ** samples and exhaustive lists *)
(** polymat.py:258-260 *)
Definition rhogap (A : parr) : res (list Q) :=
  dm <- degmax A ;; vm <- valmin A ;;
  Ok (map (fun '(x, y) => inject_Z (x - y) / 2)%Q (combine dm vm)).
(** [images[indices]] of a batch *)
Definition arr_take (A : parr) (is : list nat) : res parr :=
  bs <- mapM (get (ablocks A)) is ;; Ok (mkA [length is] (aI A) (aJ A) (aD A) (adt A) bs).
(** [x/length < 1.0] in numpy: a division by 0 gives inf or nan, which are not below 1 *)
Definition ratio_below_1 (x : Q) (len : Z) : bool := (0 <? len)%Z && negb (Qle_bool (inject_Z len) x).
(** braidsearch.py:274-293 *)
Definition all_of_length_below_1 (tb : nat -> res (nftable (list nat))) (S : jsum) (len : Z) : res (list nfobj * parr) :=
  all <- all_of_garside_length tb (js_n S) len 0 ;;
  chunks <- batched all 1000 ;;
  '(bs, ims) <- foldM (fun '(bs, ims) braids =>
      images <- js_evaluate_same_length tb S braids ;;
      gaps <- rhogap images ;;
      let is := filter (fun i => match nth_error gaps i with Some x => ratio_below_1 x len | None => false end) (seq 0 (length gaps)) in
      if 0 <? length is then
        good <- mapM (get braids) is ;;
        im <- arr_take images is ;;
        Ok (bs ++ good, ims ++ [im])
      else Ok (bs, ims)) chunks ([], []) ;;
  im <- concatenate ims ;;
  Ok (bs, im).
(** braidsearch.py:227-233; the k-th braid is drawn with its own random numbers *)
Definition sample_braids_images (tb : nat -> res (nftable (list nat))) (draw : nat -> nat -> nat) (S : jsum) (len count : nat) : res (list nfobj * parr) :=
  braids <- mapM (fun k => nf_sample tb (draw k) (js_n S) len) (seq 0 count) ;;
  images <- js_evaluate_same_length tb S braids ;;
  Ok (braids, images).
(** braidsearch.py:236-244 *)
Definition sample_braids_images_upto_length (tb : nat -> res (nftable (list nat))) (draw : nat -> nat -> nat -> nat) (S : jsum) (from upto count : nat) : res (list nfobj * parr) :=
  pairs <- mapM (fun len => sample_braids_images tb (draw len) S len count) (seq from (upto + 1 - from)) ;;
  images <- concatenate (map snd pairs) ;;
  Ok (concat (map fst pairs), images).
