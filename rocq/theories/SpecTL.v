(** SpecTL.v – what crossingless matchings and stacked diagrams are. *)
From Verif Require Import Base.
From Coq Require Import Relations.

(** A crossingless matching of N points: a fixed-point free involution of
    {0,...,N-1} such that no two arcs cross. *)
Definition crossingless (s : list nat) : Prop :=
  (forall i, i < length s -> nth i s 0 < length s /\ nth i s 0 <> i /\ nth (nth i s 0) s 0 = i) /\
  (forall i j, j < length s -> ~ (i < j /\ j < nth i s 0 /\ nth i s 0 < nth j s 0)).

(** The same for an arbitrary sequence of integers. *)
Definition crossinglessZ (s : list Z) : Prop :=
  let N := Z.of_nat (length s) in
  let at_ := fun i => nth (Z.to_nat i) s (-1)%Z in
  (forall i, 0 <= i < N -> 0 <= at_ i < N /\ at_ i <> i /\ at_ (at_ i) = i)%Z /\
  (forall i j, 0 <= i < N -> 0 <= j < N -> ~ (i < j /\ j < at_ i /\ at_ i < at_ j))%Z.

(** Stacking [upper] on [lower] along [mid] points: the points of both
    diagrams; the k-th middle point is number k of the upper diagram and
    number L-1-k of the lower one. *)
Inductive point := Lo (i : nat) | Up (i : nat).
Inductive touches (upper lower : list nat) (mid : nat) : point -> point -> Prop :=
| arc_lower i : i < length lower -> touches upper lower mid (Lo i) (Lo (nth i lower 0))
| arc_upper i : i < length upper -> touches upper lower mid (Up i) (Up (nth i upper 0))
| same_dot k : k < mid -> touches upper lower mid (Lo (length lower - 1 - k)) (Up k).
(** joined by a path through the stacked diagram *)
Definition joined (upper lower : list nat) (mid : nat) : point -> point -> Prop :=
  clos_refl_sym_trans point (touches upper lower mid).
(** the i-th boundary point of the stacked diagram: first the bottom of the
    lower diagram, then the top of the upper one *)
Definition outer (bot mid i : nat) : point := if i <? bot then Lo i else Up (i - bot + mid).
(** [l] contains exactly one middle point of every closed loop *)
Definition loops (upper lower : list nat) (mid : nat) (l : list nat) : Prop :=
  let bot := length lower - mid in let size := bot + (length upper - mid) in
  let is_loop := fun k => k < mid /\ forall i, i < size -> ~ joined upper lower mid (Up k) (outer bot mid i) in
  (forall k, In k l -> is_loop k) /\
  ForallOrdPairs (fun k k' => ~ joined upper lower mid (Up k) (Up k')) l /\
  (forall k, is_loop k -> exists k', In k' l /\ joined upper lower mid (Up k) (Up k')).

(** Strict lexicographic order: the first difference decides. *)
Definition lex_lt (a b : list nat) : Prop :=
  exists k, k < length a /\ k < length b /\ firstn k a = firstn k b /\ nth k a 0 < nth k b 0.
(** A diagram from b points (numbers 0..b-1) in which every bottom point runs
    to the top: b through strands. *)
Definition through_all (b : nat) (s : list nat) : Prop := forall i, i < b -> b <= nth i s 0.
