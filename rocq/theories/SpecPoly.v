(** SpecPoly.v – Laurent polynomials as coefficient functions. *)
From Coq Require Import ZArith List Lia.
Import ListNotations.
Local Open Scope Z_scope.

(** the coefficient of v^k in sum_i cs[i] v^(val+i) *)
Definition coeff_at (val : Z) (cs : list Z) (k : Z) : Z :=
  if k <? val then 0 else nth (Z.to_nat (k - val)) cs 0.
(** sum_{i=0}^{n-1} f i *)
Fixpoint zsum (n : nat) (f : nat -> Z) : Z :=
  match n with O => 0 | S m => zsum m f + f m end.
