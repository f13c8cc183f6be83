(** ModelFrame.v – the dataframe of braids, images and statistics of braidsearch.py. *)
From Coq Require Import QArith.
From Verif Require Import Base ModelPolymat ModelBraid ModelTools.
Local Open Scope nat_scope.

(** the argument [images] of braids_images_to_dataframe: an ndarray, a list of
    ndarrays, or something else *)
Inductive images_arg := ImgArray (A : parr) | ImgList (l : list parr) | ImgOther.
(** one row of the dataframe, one field per column.  The quotient rhogap/length is a
    float in the code: here it is the exact quotient, and [None] for a division by zero
    (inf or nan in the code). *)
Record frow := mkRow { fr_braid : nfobj; fr_image : parr; fr_length : nat; fr_nz_terms : nat;
  fr_degmax : Z; fr_valmin : Z; fr_rhogap : Q; fr_ratio : option Q }.

(** the value of a statistic on an array of shape (I, J, D): one entry.  An array with
    more axes would give a cell that is itself an array: not modelled. *)
Definition one_value {A} (l : list A) : res A := match l with [x] => Ok x | _ => Err NotModelled end.

(** braidsearch.py:252-260, the list of the images *)
Definition frame_images (braids : list nfobj) (images : images_arg) : res (list parr) :=
  match images with
  | ImgArray A =>
      _ <- assert_ (length (apre A) + 3 =? 4) ;;
      _ <- assert_ (nth 0 (apre A) 0 =? length braids) ;;
      mapM (fun i => arr_item A (Z.of_nat i)) (seq 0 (nth 0 (apre A) 0))
  | ImgList l => Ok l
  | ImgOther => Err ValueError
  end.
(** braidsearch.py:247-271; DataFrame.from_dict refuses columns of different lengths;
    garside_length is braid.py:601-603 *)
Definition braids_images_to_dataframe (braids : list nfobj) (images : images_arg) : res (list frow) :=
  l <- frame_images braids images ;;
  _ <- (if length braids =? length l then Ok tt else Err ValueError) ;;
  let len := map canonical_length braids in
  nz <- mapM (fun a => one_value (nz_terms a)) l ;;
  dm <- mapM (fun a => d <- degmax a ;; one_value d) l ;;
  vm <- mapM (fun a => d <- valmin a ;; one_value d) l ;;
  rg <- mapM (fun a => d <- rhogap a ;; one_value d) l ;;
  Ok (map (fun '(((((b, a), n), z), (d, v)), x) =>
        mkRow b a n z d v x (if n =? 0 then None else Some (x / inject_Z (Z.of_nat n))%Q))
      (combine (combine (combine (combine (combine braids l) len) nz) (combine dm vm)) rg)).
