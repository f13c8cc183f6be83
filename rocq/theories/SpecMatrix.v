(** SpecMatrix.v – finite sums and the textbook entries of a product. *)
From Coq Require Import List Arith.
Section S.
Context {R : Type} (O I : R) (radd rmul : R -> R -> R).
(** f 0 + f 1 + ... + f (n-1) *)
Fixpoint rsum (n : nat) (f : nat -> R) : R :=
  match n with 0 => O | S m => radd (rsum m f) (f m) end.
(** the entry (i, j) of a row-major matrix with [c] columns *)
Definition entry (c : nat) (data : list R) (i j : nat) : R := nth (c * i + j) data O.
End S.
