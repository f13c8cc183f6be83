(** SpecPerm.v – specification vocabulary for permutations: nothing here refers
    to the code's own functions. *)
From Verif Require Import Base SpecBraid.
From Coq Require Import Permutation.

(** word notation: a rearrangement of 0 .. n-1 *)
Definition is_perm_word (n : nat) (w : list nat) : Prop := Permutation w (seq 0 n).

(** the adjacent transposition s_i on points, and the product of a word *)
Definition sgen (i x : nat) : nat := if x =? i then i + 1 else if x =? i + 1 then i else x.
Definition sprod (u : list nat) (x : nat) : nat := fold_right sgen x u.
(** the word [u] in the generators s_0 .. s_(n-2) expresses the permutation [w] *)
Definition expresses (n : nat) (u : list nat) (w : list nat) : Prop :=
  Forall (fun i => i + 1 < n) u /\ length w = n /\ forall x, x < n -> nth x w 0 = sprod u x.
(** a shortest such word *)
Definition shortest (n : nat) (u w : list nat) : Prop :=
  expresses n u w /\ forall v, expresses n v w -> length u <= length v.
(** [b] is the positive lift of the permutation [w]: spelled by a shortest word *)
Definition lifts (n : nat) (w : list nat) (b : bword) : Prop :=
  exists u, shortest n u w /\ b = pword u.
(** inversions of w: pairs of positions in the wrong order *)
Definition inversion (w : list nat) (i j : nat) : Prop := i < j /\ j < length w /\ nth j w 0 < nth i w 0.
(** [a] occurs before [b] in [w] *)
Definition before (w : list nat) (a b : nat) : Prop :=
  exists p q, p < q /\ nth_error w p = Some a /\ nth_error w q = Some b.
(** the pair (x, y) is left-weighted: every generator that can be taken off the
    left of y already ends x *)
Definition weighted (n : nat) (x y : list nat) : Prop :=
  forall i, i + 1 < n -> before y (i + 1) i -> inversion x i (i + 1).
Fixpoint chain {A} (R : A -> A -> Prop) (l : list A) : Prop :=
  match l with
  | x :: (y :: _) as r => R x y /\ chain R r
  | _ => True
  end.
(** Garside normal form: proper divisors, consecutive pairs left-weighted *)
Definition proper_perm (n : nat) (w : list nat) : Prop :=
  is_perm_word n w /\ w <> seq 0 n /\ w <> rev (seq 0 n).
Definition normal_seq (n : nat) (l : list (list nat)) : Prop :=
  Forall (proper_perm n) l /\ chain (weighted n) l.

(** [c] lists one cycle of [w] in traversal order *)
Definition traverses (w c : list nat) : Prop :=
  forall i, i < length c -> nth (nth i c 0) w 0 = nth ((i + 1) mod length c) c 0.
(** points of one orbit *)
Definition same_orbit (w : list nat) (x y : nat) : Prop :=
  exists k, Nat.iter k (fun z => nth z w 0) x = y.
(** every point goes to the next lower point of its orbit, the least one to the greatest *)
Definition descends (w : list nat) : Prop :=
  forall x, x < length w ->
    (nth x w 0 < x /\ forall y, same_orbit w x y -> y < x -> y <= nth x w 0) \/
    (forall y, same_orbit w x y -> x <= y <= nth x w 0).
(** two different orbits cross *)
Definition crossing (w : list nat) : Prop :=
  exists a b c d, a < b /\ b < c /\ c < d /\ d < length w /\
    same_orbit w a c /\ same_orbit w b d /\ ~ same_orbit w a b.
(** strict lexicographic order *)
Definition lex_lt (u v : list nat) : Prop :=
  exists p a b u' v', u = p ++ a :: u' /\ v = p ++ b :: v' /\ a < b.
