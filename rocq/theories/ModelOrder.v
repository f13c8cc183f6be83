(** ModelOrder.v – comparison of braids: the methods that
    [dataclasses.dataclass(frozen=True, order=True)] generates for GNF and DGNF
    (/repo/peyl/braid.py:521 and 606): the tuples (n, power, factors) are compared,
    and objects of different classes are not comparable. *)
From Verif Require Import Base ModelBraid ModelTL.
Local Open Scope nat_scope.

Inductive cop := Clt | Cle | Cgt | Cge.
Definition zop (o : cop) (x y : Z) : bool :=
  match o with Clt => (x <? y)%Z | Cle => (x <=? y)%Z | Cgt => (y <? x)%Z | Cge => (y <=? x)%Z end.
(** comparison of two tuples of integers: the first two entries that differ are
    compared; if there are none, the lengths *)
Fixpoint tuple_op (o : cop) (a b : list Z) : bool :=
  match a, b with
  | x :: a', y :: b' => if (x =? y)%Z then tuple_op o a' b' else zop o x y
  | _, _ => zop o (Z.of_nat (length a)) (Z.of_nat (length b))
  end.
Fixpoint tuple_eqb (a b : list Z) : bool :=
  match a, b with
  | [], [] => true
  | x :: a', y :: b' => (x =? y)%Z && tuple_eqb a' b'
  | _, _ => false
  end.
(** braid.py:521 and 606: (n, power, factors) against (n, power, factors); the tuples of three
    have the same length *)
Definition nf_op (o : cop) (a b : nfobj) : bool :=
  if o_n a =? o_n b then
    if (o_pow a =? o_pow b)%Z then
      if tuple_eqb (o_factors a) (o_factors b) then zop o 3 3 else tuple_op o (o_factors a) (o_factors b)
    else zop o (o_pow a) (o_pow b)
  else zop o (Z.of_nat (o_n a)) (Z.of_nat (o_n b)).
Inductive nfclass := ClsGNF | ClsDGNF.
(** [a < b], [a <= b], [a > b], [a >= b] for objects of the classes c and c' *)
Definition nf_compare (o : cop) (c c' : nfclass) (a b : nfobj) : res bool :=
  match c, c' with
  | ClsGNF, ClsGNF | ClsDGNF, ClsDGNF => Ok (nf_op o a b)
  | _, _ => Err TypeError
  end.
(** [sorted(braids)], of one class: a stable sort that uses [<] only *)
Definition nf_sorted (l : list nfobj) : list nfobj := sorted_by (fun a b => negb (nf_op Clt b a)) l.
