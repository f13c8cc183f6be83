(** SpecPolymat.v – what an array of polynomial matrices means, independently of
    the operations of the model. *)
From Verif Require Import Base SpecPoly ModelPolymat.
Local Open Scope nat_scope.

(** the C-order position of a multi-index (Horner's rule) *)
Definition cpos (shape idx : list nat) : nat := fold_left (fun acc p => acc * fst p + snd p) (combine shape idx) 0.
Definition valid_index (shape idx : list nat) : Prop := Forall2 (fun i s => i < s) idx shape.
(** the number of entries of an array of the given shape *)
Definition nitems (shape : list nat) : nat := fold_right Nat.mul 1 shape.
(** the coefficient of v^d in the entry (i, j) of the matrix at the index [idx] of
    the batch; degrees beyond the array are zero *)
Definition acoef (A : parr) (idx : list nat) (i j d : nat) : Z :=
  if d <? aD A then nth (cpos (apre A ++ [aI A; aJ A; aD A]) (idx ++ [i; j; d])) (concat (ablocks A)) 0%Z else 0%Z.
(** the array is well formed: the number of cells is right and every cell holds a
    value of the dtype *)
Definition wfa (A : parr) : Prop :=
  length (ablocks A) = nitems (apre A) /\
  Forall (fun b => length b = nitems [aI A; aJ A; aD A]) (ablocks A) /\
  Forall (fun b => Forall (fun x => - 2 ^ (dbits (adt A) - 1) <= x < 2 ^ (dbits (adt A) - 1))%Z b) (ablocks A).
(** the coefficient of v^d of the (i, k) entry of the product of two matrices of
    polynomials given by their coefficients; J is the inner dimension *)
Definition prod_coef (J : nat) (a b : nat -> nat -> nat -> Z) (i k d : nat) : Z :=
  zsum J (fun j => zsum (S d) (fun e => (a i j e * b j k (d - e)%nat)%Z)).
(** an integer that a cell of the dtype can hold *)
Definition in_dtype (t : dtype) (x : Z) : Prop := (- 2 ^ (dbits t - 1) <= x < 2 ^ (dbits t - 1))%Z.
(** numpy's broadcasting of two shapes: the axes are matched from the right, a
    missing axis counts as 1; two axes are compatible when they are equal or one of
    them is 1, and the result has the other one *)
Definition axis (shape : list nat) (k : nat) : nat := nth k (rev shape) 1.
Definition compatible (a b : list nat) : Prop := forall k, axis a k = axis b k \/ axis a k = 1 \/ axis b k = 1.
Definition broadcasts (a b c : list nat) : Prop :=
  compatible a b /\ length c = Nat.max (length a) (length b) /\
  forall k, axis c k = if axis a k =? 1 then axis b k else axis a k.
(** the index of the operand of shape [a] that is used for the index [idx] of the
    broadcast shape; the axes are listed from the right *)
Fixpoint operand_axes (a idx : list nat) : list nat :=
  match a, idx with s :: a', i :: idx' => (if s =? 1 then 0 else i) :: operand_axes a' idx' | _, _ => [] end.
Definition operand_index (a idx : list nat) : list nat := rev (operand_axes (rev a) (rev idx)).
(** two polynomial matrices are the same polynomial matrix / differ by v^k *)
Definition same_poly (a b : nat -> nat -> nat -> Z) (I J : nat) : Prop :=
  forall i j d, i < I -> j < J -> a i j d = b i j d.
Definition nonzero_poly (a : nat -> nat -> nat -> Z) (I J : nat) : Prop :=
  exists i j d, i < I /\ j < J /\ a i j d <> 0%Z.
(** d is the least / the greatest degree with a non-zero coefficient matrix *)
Definition least_degree (a : nat -> nat -> nat -> Z) (I J d : nat) : Prop :=
  (exists i j, i < I /\ j < J /\ a i j d <> 0%Z) /\ (forall i j e, i < I -> j < J -> e < d -> a i j e = 0%Z).
Definition greatest_degree (a : nat -> nat -> nat -> Z) (I J d : nat) : Prop :=
  (exists i j, i < I /\ j < J /\ a i j d <> 0%Z) /\ (forall i j e, i < I -> j < J -> d < e -> a i j e = 0%Z).
(** multiplication by v^k *)
Definition shift (k : nat) (a : nat -> nat -> nat -> Z) (i j d : nat) : Z := if d <? k then 0%Z else a i j (d - k).
