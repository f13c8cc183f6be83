(** ModelRepr.v – [Poly.__repr__], [LPoly.fmt] and [LPoly.__repr__].

    Python str values are Coq [string]s (only ASCII characters occur). *)
From Verif Require Import Base ModelPoly.
From Coq Require Import String Ascii DecimalString DecimalZ.
Local Open Scope string_scope.
Local Open Scope Z_scope.

(** [f'{n}'] for an int n: its decimal representation. *)
Local Infix "+++" := String.append (at level 60, right associativity).
Definition dec (n : Z) : string := NilZero.string_of_int (Z.to_int n).

(** poly.py:72 and lpoly.py:109: the sign; [parts] is empty exactly for the
    first printed term. *)
Definition sign_str (first : bool) (c : Z) : string :=
  if (0 <? c) && negb first then " + "
  else if (c <? 0) && negb first then " - "
  else if 0 <? c then "" else "-".

(** poly.py:73 *)
Definition poly_term (i : Z) : string :=
  if i =? 0 then "" else if i =? 1 then "x" else "x^" +++ dec i.
(** poly.py:74: note the constant ['1'] *)
Definition poly_coeff (i c : Z) : string :=
  if i =? 0 then "1" else if Z.abs c =? 1 then "" else dec (Z.abs c).
(** lpoly.py:102, 110 *)
Definition lpoly_term (latex : bool) (i : Z) : string :=
  if i =? 0 then "" else if i =? 1 then "v"
  else if latex then "v^{" +++ dec i +++ "}" else "v^" +++ dec i.
(** lpoly.py:111 *)
Definition lpoly_coeff (i c : Z) : string :=
  if i =? 0 then dec (Z.abs c) else if Z.abs c =? 1 then "" else dec (Z.abs c).

(** poly.py:66-77 / lpoly.py:104-114: the loop over reversed(list(enumerate(...)));
    zero coefficients are skipped; [''.join(parts)]. *)
Fixpoint render (coeff : Z -> Z -> string) (term : Z -> string) (first : bool) (l : list (Z * Z)) : string :=
  match l with
  | nil => ""
  | (i, c) :: l' =>
      if c =? 0 then render coeff term first l'
      else sign_str first c +++ coeff i c +++ term i +++ render coeff term false l'
  end.

(** poly.py:49-77 *)
Definition poly_repr (p : poly) : string :=
  match p with
  | nil => "Poly('0')"
  | _ => "Poly('" +++ render poly_coeff poly_term true (rev (enumerate 0 p)) +++ "')"
  end.
(** lpoly.py:98-114 *)
Definition lpoly_fmt (latex : bool) (p : lpoly) : string :=
  match lcoeffs p with
  | nil => "0"
  | _ => render lpoly_coeff (lpoly_term latex) true (rev (enumerate (lval p) (lcoeffs p)))
  end.
(** lpoly.py:78-96 *)
Definition lpoly_repr (p : lpoly) : string := "LPoly('" +++ lpoly_fmt false p +++ "')".
