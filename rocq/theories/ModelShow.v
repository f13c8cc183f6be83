(** ModelShow.v – the displayed forms: the [_repr_latex_] methods of permutations, normal
    forms, noncrossing partitions, Laurent polynomials and matrices, [NPar.__repr__], and
    show.py.  A Python str is a Coq [string] of its UTF-8 bytes. *)
From Verif Require Import Base ModelPoly ModelMatrix ModelRepr ModelText ModelPerm ModelBraid ModelNPar.
From Coq Require Import String Ascii.
Local Open Scope string_scope.
Local Open Scope list_scope.
Local Infix "+++" := String.append (at level 60, right associativity).

(** [s.strip('$')] *)
Fixpoint lstrip (l : list ascii) : list ascii :=
  match l with
  | c :: l' => if (c =? "$")%char then lstrip l' else l
  | [] => []
  end.
Definition strip_dollar (s : string) : string :=
  string_of_list_ascii (rev (lstrip (rev (lstrip (list_ascii_of_string s))))).

(** [str(i)] of an index *)
Definition decn (i : nat) : string := dec (Z.of_nat i).

(** permutations.py:435-438 *)
Definition perm_latex (w : list nat) : res string :=
  if is_identity w then Ok "$\mathrm{id}$"
  else word <- shortlex w ;; Ok ("$" +++ join " " (map (fun i => "s_{" +++ decn i +++ "}") word) +++ "$").

(** braid.py:544-547 and 631-634, with the letter of the Garside element and the display of a divisor *)
Definition nf_latex {A} (tb : nat -> res (nftable A)) (letter : string) (show : A -> res string) (b : nfobj) : res string :=
  '(power, divs) <- canonical_decomposition tb b ;;
  texts <- mapM show divs ;;
  Ok ("$(\" +++ letter +++ "^{" +++ dec power +++ "};" +++ join ", " (map strip_dollar texts) +++ ")$").

(** the text [' ∪ '] of noncrossing.py:244 *)
Definition cup_sep : string := " ∪ ".
(** noncrossing.py:244, one component *)
Definition comp_latex (comp : list nat) : string := "\{" +++ join ", " (map decn comp) +++ "\}".
(** noncrossing.py:243-244 *)
Definition npar_latex (p : npar) : res string :=
  cs <- components p ;; Ok ("$p(" +++ join cup_sep (map comp_latex cs) +++ ")$").

(** braid.py:544-547 *)
Definition gnf_latex (tb : nat -> res (nftable (list nat))) : nfobj -> res string := nf_latex tb "Delta" perm_latex.
(** braid.py:631-634 *)
Definition dgnf_latex (tb : nat -> res (nftable npar)) : nfobj -> res string := nf_latex tb "delta" npar_latex.

(** lpoly.py:116-117; an int has no [_repr_latex_], matrix.py:268-269 *)
Definition num_latex (x : num) : string := match x with NI n => dec n | NL p => lpoly_fmt true p end.
(** matrix.py:267-281; the entries data[i * ncols + j] of line i are the slice of [mat_rows] *)
Definition mat_latex (m : mat num) : string :=
  "\begin{pmatrix}" +++ join " \\ " (map (fun row => join " & " (map num_latex row)) (mat_rows m)) +++ "\end{pmatrix}".

(** noncrossing.py:101-102; [order] is the order in which Python iterates over a set of ints,
    which [repr(set(comp))] shows *)
Definition npar_repr (order : list nat -> list nat) (p : npar) : res string :=
  cs <- components p ;;
  Ok ("NPar(" +++ decn (np_n p) +++ ", [" +++
      join ", " (map (fun c => "{" +++ join ", " (map decn (order c)) +++ "}") (filter (fun c => (1 <? List.length c)%nat) cs)) +++ "])").

(** What html_repr asks an object for: [_repr_html_], [_repr_latex_], being a str, and repr. *)
Record shown := mkShown { sh_html : option string; sh_latex : option string; sh_str : option string; sh_repr : string }.
(** show.py:100-110 *)
Definition html_repr (prefer_latex : bool) (o : shown) : string :=
  match (if prefer_latex then sh_latex o else None) with
  | Some t => " $ " +++ t +++ " $ "
  | None =>
      match sh_html o with
      | Some t => t
      | None => match sh_latex o with
                | Some t => t
                | None => match sh_str o with Some t => t | None => sh_repr o end
                end
      end
  end.
(** the entries of matrices as objects: an int has neither method, an LPoly has [_repr_latex_] *)
Definition shown_num (x : num) : shown :=
  match x with
  | NI n => mkShown None None None (dec n)
  | NL p => mkShown None (Some (lpoly_fmt true p)) None (lpoly_repr p)
  end.
(** a double quote *)
Definition quote : string := String (ascii_of_nat 34) "".
(** show.py:71, 78, 82: the opening tag of a cell *)
Definition td_open : string := "<td style=" +++ quote +++ "text-align: center" +++ quote +++ ">".
(** show.py:62-63 *)
Definition blank_zero (v : string) : string := if (v =? "0")%string then "" else v.
(** show.py:71; [x._repr_html_()] exists or AttributeError *)
Definition col_html (x : shown) : res string :=
  match sh_html x with Some t => Ok (td_open +++ t +++ "</td>") | None => Err AttributeError end.
(** show.py:61-88; [e] is the function of show.py:64-65 *)
Definition framed_html (rows cols : list shown) (e : nat -> nat -> res shown) : res string :=
  cs <- mapM col_html cols ;;
  rs <- mapM (fun i =>
    r <- Base.get rows i ;;
    cells <- mapM (fun j => x <- e i j ;; Ok (td_open +++ blank_zero (html_repr true x) +++ "</td>")) (seq 0 (List.length cols)) ;;
    Ok (String.concat "" (["<tr>"; td_open; html_repr false r; "</td>"] ++ cells ++ ["</tr>"]))) (seq 0 (List.length rows)) ;;
  Ok (String.concat "" (["<table>"; "<tr>"; "<td></td>"] ++ cs ++ ["</tr>"; String.concat "" rs; "</table>"])).
(** show.py:64-65 on a Matrix: [self.entries[i, j]], matrix.py:146-163 *)
Definition entry_of (m : mat num) (i j : nat) : res shown := x <- mat_get m (Z.of_nat i) (Z.of_nat j) ;; Ok (shown_num x).
