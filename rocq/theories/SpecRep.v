(** SpecRep.v – what it means for two Python numbers and two matrices to be
    equal modulo p, independently of the model's arithmetic. *)
From Verif Require Import Base ModelPoly ModelMatrix SpecPoly.
Local Open Scope Z_scope.

(** the coefficient of v^k of a Python number (an int is a constant) *)
Definition numcoef (x : num) (k : Z) : Z :=
  match x with NI c => if k =? 0 then c else 0 | NL l => coeff_at (lval l) (lcoeffs l) k end.
(** congruence modulo p; equality of all coefficients for p = 0 *)
Definition congr (p : Z) (x y : num) : Prop := forall k, (p | numcoef x k - numcoef y k).
Definition mat_congr (p : Z) (A B : mat num) : Prop :=
  mrows A = mrows B /\ mcols A = mcols B /\ Forall2 (congr p) (mdata A) (mdata B).
(** a d by d matrix *)
Definition square (d : nat) (A : mat num) : Prop := mrows A = d /\ mcols A = d /\ length (mdata A) = (d * d)%nat.
Definition is_unit_matrix (p : Z) (d : nat) (A : mat num) : Prop :=
  square d A /\ forall i j, (i < d)%nat -> (j < d)%nat -> congr p (nth (d * i + j) (mdata A) (NI 0)) (if Nat.eqb i j then NI 1 else NI 0).
(** every entry is an LPoly in canonical form with coefficients reduced modulo p *)
Definition reduced_entry (p : Z) (x : num) : Prop :=
  exists l, x = NL l /\ lpoly_make (lval l) (lcoeffs l) = l /\ (p <> 0 -> forall c, In c (lcoeffs l) -> 0 <= c < p).
Definition reduced_matrix (p : Z) (A : mat num) : Prop := Forall (reduced_entry p) (mdata A).
(** a word that contains at least one letter with a non-zero exponent *)
Definition nontrivial_word (w : list (Z * Z)) : Prop := exists i e, In (i, e) w /\ e <> 0.
