(** ModelSql.v – braids as text: adapt_braid and convert_braid at the end of
    braid.py, and the text written by search.py.

    Python str and bytes values are lists of ASCII characters. *)
From Verif Require Import Base ModelPerm ModelBraid ModelPoly ModelRepr.
From Coq Require Import String Ascii DecimalString DecimalZ.
From Coq Require Import List.
Import ListNotations.
Local Open Scope list_scope.
Local Open Scope char_scope.

(** the Python values that occur: ints and tuples of such values *)
Inductive pyval := PInt (z : Z) | PTup (l : list pyval).

(** str(x) for such a value: ints in decimal, tuples as (a, b, c), with a
    trailing comma for one element.  (Python refuses to convert ints of more than
    4300 digits; that limit is not modelled.) *)
Fixpoint py_str (v : pyval) : list ascii :=
  match v with
  | PInt z => list_ascii_of_string (dec z)
  | PTup l =>
      match l with
      | [] => ["("; ")"]
      | [x] => "(" :: py_str x ++ [","; ")"]
      | x :: t => "(" :: py_str x ++ (fix rest (t : list pyval) := match t with [] => [] | y :: u => "," :: " " :: py_str y ++ rest u end) t ++ [")"]
      end
  end.

(** dataclasses.astuple(braid): the fields n, power, factors in this order *)
Definition astuple (b : nfobj) : pyval :=
  PTup [PInt (Z.of_nat (o_n b)); PInt (o_pow b); PTup (map PInt (o_factors b))].

Inductive nfclass := cGNF | cDGNF.
(** braid.__class__.__name__ *)
Definition class_name (c : nfclass) : list ascii := match c with cGNF => ["G"; "N"; "F"] | cDGNF => ["D"; "G"; "N"; "F"] end.
(** braid.py:796-800 *)
Definition adapt_braid (c : nfclass) (b : nfobj) : list ascii := class_name c ++ py_str (astuple b).
(** search.py:138: str(dataclasses.astuple(braid)) *)
Definition saved_text (b : nfobj) : list ascii := py_str (astuple b).

(** ast.literal_eval, restricted to decimal ints and tuples (with blanks
    anywhere between tokens).  Everything else is refused with ValueError;
    Python's function accepts more, and refuses the rest with ValueError or
    SyntaxError.  The fuel is the length of the text. *)
Definition is_dig (c : ascii) : bool := match c with "0" | "1" | "2" | "3" | "4" | "5" | "6" | "7" | "8" | "9" => true | _ => false end.
Fixpoint skip (s : list ascii) : list ascii := match s with " " :: t => skip t | _ => s end.
Fixpoint digits (s : list ascii) : list ascii * list ascii :=
  match s with
  | c :: t => if is_dig c then let '(d, r) := digits t in (c :: d, r) else ([], s)
  | [] => ([], [])
  end.
(** a decimal literal: leading zeros are a syntax error *)
Definition number (s : list ascii) : res (Z * list ascii) :=
  let '(d, r) := digits s in
  match d with
  | [] => Err ValueError
  | "0" :: _ :: _ => Err ValueError
  | _ => match NilZero.uint_of_string (string_of_list_ascii d) with Some u => Ok (Z.of_uint u, r) | None => Err ValueError end
  end.
Fixpoint parse (fuel : nat) (s : list ascii) : res (pyval * list ascii) :=
  match fuel with
  | 0 => Err OutOfFuel
  | S f =>
      match skip s with
      | "-" :: t => '(z, r) <- number (skip t) ;; Ok (PInt (- z), r)
      | "(" :: t => match skip t with ")" :: r => Ok (PTup [], r) | _ => items f t [] end
      | t => '(z, r) <- number t ;; Ok (PInt z, r)
      end
  end
with items (fuel : nat) (s : list ascii) (acc : list pyval) : res (pyval * list ascii) :=
  match fuel with
  | 0 => Err OutOfFuel
  | S f =>
      '(v, r) <- parse f s ;;
      match skip r with
      | "," :: t => match skip t with ")" :: u => Ok (PTup (rev (v :: acc)), u) | _ => items f t (v :: acc) end
      | ")" :: t => Ok (match acc with [] => v | _ => PTup (rev (v :: acc)) end, t)
      | _ => Err ValueError
      end
  end.
Definition literal_eval (s : list ascii) : res pyval :=
  '(v, r) <- parse (2 * S (List.length s)) s ;;
  match skip r with [] => Ok v | _ => Err ValueError end.

(** bytes.startswith *)
Fixpoint startswith (p s : list ascii) : bool :=
  match p, s with
  | [], _ => true
  | _, [] => false
  | c :: p', d :: s' => if ascii_dec c d then startswith p' s' else false
  end.
Definition ints_of (l : list pyval) : res (list Z) := mapM (fun v => match v with PInt z => Ok z | PTup _ => Err TypeError end) l.

Section Convert.
Context {A B : Type}.
Variable gtb : nat -> res (nftable A).     (* PermTable.create *)
Variable dtb : nat -> res (nftable B).     (* NParTable.create *)
(** cls( *args): three arguments are needed; n must be an int, not negative
    (braid.py:208, 279), factors a tuple of ints *)
Definition construct (c : nfclass) (v : pyval) : res (nfclass * nfobj) :=
  match v with
  | PTup [PInt n; PInt power; PTup fs] =>
      _ <- assert_ (0 <=? n)%Z ;;
      fs <- ints_of fs ;;
      b <- match c with cGNF => mk gtb (Z.to_nat n) power fs | cDGNF => mk dtb (Z.to_nat n) power fs end ;;
      Ok (c, b)
  | _ => Err TypeError
  end.
(** braid.py:803-811 *)
Definition convert_braid (data : list ascii) : res (nfclass * nfobj) :=
  if startswith ["G"; "N"; "F"] data then v <- literal_eval (skipn 3 data) ;; construct cGNF v
  else if startswith ["D"; "G"; "N"; "F"] data then v <- literal_eval (skipn 4 data) ;; construct cDGNF v
  else Err ValueError.
End Convert.
