(** SpecBraid.v – the braid group on n strands, by Artin's presentation.

    A word is a list of letters [(i, true)] = sigma_i and [(i, false)] =
    sigma_i^-1, the generators being sigma_0, ..., sigma_(n-2).  [braid_eq n]
    is the least congruence containing the defining relations, i.e. equality
    in the group < sigma_i | relations >.  Nothing here refers to the model. *)
From Verif Require Import Base.

Definition bword := list (nat * bool).

Inductive braid_eq (n : nat) : bword -> bword -> Prop :=
| be_refl u : braid_eq n u u
| be_sym u v : braid_eq n u v -> braid_eq n v u
| be_trans u v w : braid_eq n u v -> braid_eq n v w -> braid_eq n u w
| be_app u u' v v' : braid_eq n u u' -> braid_eq n v v' -> braid_eq n (u ++ v) (u' ++ v')
| be_cancel i e : i + 1 < n -> braid_eq n [(i, e); (i, negb e)] []
| be_far i j : i + 2 <= j -> j + 1 < n ->
    braid_eq n [(i, true); (j, true)] [(j, true); (i, true)]
| be_braid i : i + 2 < n ->
    braid_eq n [(i, true); (i + 1, true); (i, true)] [(i + 1, true); (i, true); (i + 1, true)].

(** letters are generators of B_n *)
Definition in_range (n : nat) (w : bword) : Prop := Forall (fun l => fst l + 1 < n) w.

(** formal inverse of a word *)
Definition winv (w : bword) : bword := rev (map (fun l => (fst l, negb (snd l))) w).

(** k-fold power of a word, k any integer *)
Definition wpow (w : bword) (k : Z) : bword :=
  if (0 <=? k)%Z then concat (repeat w (Z.to_nat k)) else concat (repeat (winv w) (Z.to_nat (- k))).

(** words with integer exponents, as the Python API takes them: [(i, e)] is
    sigma_i^e.  [word_ok n] says that every i is a generator index. *)
Definition word_ok (n : nat) (w : list (Z * Z)) : Prop :=
  Forall (fun l => 0 <= fst l /\ fst l + 1 < Z.of_nat n)%Z w.
Definition expand (w : list (Z * Z)) : bword :=
  flat_map (fun l => repeat (Z.to_nat (fst l), (0 <=? snd l)%Z) (Z.abs_nat (snd l))) w.

(** a positive braid: equal to a word without inverse letters *)
Definition positive (n : nat) (w : bword) : Prop :=
  exists u, in_range n u /\ Forall (fun l => snd l = true) u /\ braid_eq n w u.

(** positive words with the lattice generators only: the word of a list of indices *)
Definition pword (l : list nat) : bword := map (fun i => (i, true)) l.
