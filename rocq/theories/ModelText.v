(** ModelText.v – the small constructors and the printed forms of matrix.py.
    [show] is repr (and str) of an entry. *)
From Verif Require Import Base ModelPoly ModelMatrix ModelRepr.
From Coq Require Import String Ascii.
Local Open Scope string_scope.
Local Open Scope list_scope.
Local Infix "+++" := String.append (at level 60, right associativity).

Section Small.
Context {R : Type} (O I : R).
(** matrix.py:58-59 *)
Definition mat_indices (m : mat R) : list (nat * nat) := pairs (mrows m) (mcols m).
(** matrix.py:93-95 *)
Definition mat_row_vector (l : list R) : res (mat R) := mat_make 1 (Z.of_nat (List.length l)) l.
(** matrix.py:97-99 *)
Definition mat_col_vector (l : list R) : res (mat R) := mat_make (Z.of_nat (List.length l)) 1 l.
(** matrix.py:101-104 *)
Definition mat_coord (n i : Z) : res (mat R) := mat_make n 1 (map (fun j => if (i =? Z.of_nat j)%Z then I else O) (seq 0 (Z.to_nat n))).
(** matrix.py:230-231 *)
Definition mat_is_square (m : mat R) : bool := (mrows m =? mcols m)%nat.
(** matrix.py:293-295 *)
Definition mat_entries (m : mat R) : list R := mdata m.
End Small.
(** matrix.py:290-291; [isinstance(c, int)] *)
Definition mat_is_integral (m : mat num) : bool := forallb (fun c => match c with NI _ => true | NL _ => false end) (mdata m).

(** [sep.join(l)] *)
Fixpoint join (sep : string) (l : list string) : string :=
  match l with
  | [] => ""
  | [x] => x
  | x :: l' => x +++ sep +++ join sep l'
  end.
(** the newline character *)
Definition nl : string := String (ascii_of_nat 10) "".
Section Text.
Context {R : Type} (show : R -> string).
(** matrix.py:251-265; the entries data[ncols*i+j] of line i are the slice of [mat_rows] *)
Definition mat_repr (m : mat R) : string :=
  if ((mrows m =? 0) || (mcols m =? 0))%nat then "Matrix(" +++ dec (Z.of_nat (mrows m)) +++ ", " +++ dec (Z.of_nat (mcols m)) +++ ", [])"
  else if (mrows m =? 1)%nat then "Matrix([[" +++ join ", " (map show (mdata m)) +++ "]])"
  else if (mcols m =? 1)%nat then "Matrix([" +++ join ", " (map (fun c => "[" +++ show c +++ "]") (mdata m)) +++ "])"
  else join nl (["Matrix(["] ++ map (fun row => "    [" +++ join ", " (map show row) +++ "],") (mat_rows m) ++ ["])"]).
(** matrix.py:283-285 *)
Definition mat_str (m : mat R) : string :=
  "M[" +++ join ", " (map (fun row => "[" +++ join ", " (map show row) +++ "]") (mat_rows m)) +++ "]".
End Text.
(** repr of an entry: an int prints its digits, an LPoly as lpoly.py:78-96 *)
Definition num_repr (x : num) : string := match x with NI n => dec n | NL p => lpoly_repr p end.
