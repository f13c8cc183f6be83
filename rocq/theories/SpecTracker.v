(** SpecTracker.v – what a reservoir of (braid, image) pairs should contain, in
    terms of the history of what was offered and discarded; independent of the
    data structures of the model. *)
From Verif Require Import Base ModelBraid ModelPolymat SpecPolymat.
From Coq Require Import QArith.
Local Open Scope nat_scope.

(** an offered braid with its projectivised image and its weight *)
Definition item : Type := nfobj * parr * Q.
Definition ibraid (x : item) : nfobj := fst (fst x).
Definition iimage (x : item) : parr := snd (fst x).
Definition iweight (x : item) : Q := snd x.

Section Hist.
Context {K : Type} (dec : forall a b : K, {a = b} + {a <> b}).
(** what happens to the buckets: a pair is offered with a tag, or the bucket with a
    tag is discarded *)
Inductive event := Offered (tag : K) (x : item) | Dropped (tag : K).
Definition note (tag : K) (l : list item) (e : event) : list item :=
  match e with
  | Offered t x => if dec t tag then l ++ [x] else l
  | Dropped t => if dec t tag then [] else l
  end.
(** the items offered with the tag since its bucket was last discarded, in order *)
Definition since (tag : K) (h : list event) : list item := fold_left (note tag) h [].
End Hist.
Arguments event : clear implicits.

Definition total_weight (l : list item) : Q := fold_left (fun s x => (s + iweight x)%Q) l 0%Q.

(** a single matrix without superfluous degrees: the constant and the top
    coefficient matrices are non-zero *)
Definition projective (x : parr) : Prop :=
  wfa x /\ apre x = [] /\ least_degree (acoef x []) (aI x) (aJ x) 0 /\ greatest_degree (acoef x []) (aI x) (aJ x) (aD x - 1).
(** x is the k-th matrix of the batch divided by a power of v *)
Definition projective_of (im : parr) (k : nat) (x : parr) : Prop :=
  projective x /\ aI x = aI im /\ aJ x = aJ im /\ adt x = adt im /\
  exists s, same_poly (acoef im [k]) (shift s (acoef x [])) (aI im) (aJ im).
(** the number of degrees from the least to the greatest *)
Definition degree_span (im : parr) (k : nat) (v : Z) : Prop :=
  exists a b, least_degree (acoef im [k]) (aI im) (aJ im) a /\ greatest_degree (acoef im [k]) (aI im) (aJ im) b /\
    v = (Z.of_nat b - Z.of_nat a + 1)%Z.
