(** Base.v – Python-level values used by every model file.

    Exceptions are values: a Python call that raises is [Err e].  A [while]
    loop is a recursion on fuel that returns [Err OutOfFuel] if the fuel is
    exhausted; [OutOfFuel] is not a Python exception, and every theorem about
    a loop proves a result other than [Err OutOfFuel], i.e. termination.
    [NotModelled] is not a Python exception either: the model answers it where
    the code returns an object the model has no representation for. *)

From Coq Require Export List Arith ZArith Lia Bool.
Export ListNotations.

Inductive exn : Type :=
| AssertionError
| ValueError
| IndexError
| KeyError
| TypeError
| NotImplementedError
| ZeroDivisionError
| OverflowError
| AttributeError
| NotModelled
| OutOfFuel.

Inductive res (A : Type) : Type :=
| Ok (a : A)
| Err (e : exn).
Arguments Ok {A} a.
Arguments Err {A} e.

Definition bind {A B} (m : res A) (f : A -> res B) : res B :=
  match m with
  | Ok a => f a
  | Err e => Err e
  end.

Declare Scope res_scope.
Delimit Scope res_scope with res.
Notation "x <- m ;; k" := (bind m (fun x => k))
  (at level 61, m at next level, right associativity) : res_scope.
Notation "' p <- m ;; k" := (bind m (fun p => k))
  (at level 61, p pattern, m at next level, right associativity) : res_scope.
Open Scope res_scope.

(** [assert b] *)
Definition assert_ (b : bool) : res unit :=
  if b then Ok tt else Err AssertionError.

Definition is_ok {A} (m : res A) : bool :=
  match m with Ok _ => true | Err _ => false end.

(** [[f(x) for x in l]] where [f] may raise. *)
Fixpoint mapM {A B} (f : A -> res B) (l : list A) : res (list B) :=
  match l with
  | [] => Ok []
  | x :: l' => y <- f x ;; ys <- mapM f l' ;; Ok (y :: ys)
  end.

(** [for x in l: acc = f(acc, x)] where [f] may raise. *)
Fixpoint foldM {A B} (f : B -> A -> res B) (l : list A) (b : B) : res B :=
  match l with
  | [] => Ok b
  | x :: l' => b' <- f b x ;; foldM f l' b'
  end.

(** [l[i]] for a non-negative index. *)
Definition get {A} (l : list A) (i : nat) : res A :=
  match nth_error l i with
  | Some a => Ok a
  | None => Err IndexError
  end.

(** [l[i]] for an arbitrary Python int: negative indices count from the end. *)
Definition pyget {A} (l : list A) (i : Z) : res A :=
  if (0 <=? i)%Z then get l (Z.to_nat i)
  else if (0 <=? i + Z.of_nat (length l))%Z
       then get l (Z.to_nat (i + Z.of_nat (length l)))
       else Err IndexError.

(** [l[i] = a] on a copy of the list, non-negative index. *)
Fixpoint upd {A} (l : list A) (i : nat) (a : A) : list A :=
  match l, i with
  | [], _ => []
  | _ :: l', 0 => a :: l'
  | x :: l', S i' => x :: upd l' i' a
  end.

Definition set_ {A} (l : list A) (i : nat) (a : A) : res (list A) :=
  if i <? length l then Ok (upd l i a) else Err IndexError.

(** [d[k]] for a dict given as the list of keys in insertion order whose
    values are 0, 1, 2, ...  ([{x: i for i, x in enumerate(xs)}]); the last
    occurrence of a key wins. *)
Fixpoint index_from {A} (eqb : A -> A -> bool) (l : list A) (i : nat) (x : A) : option nat :=
  match l with
  | [] => None
  | y :: l' =>
      match index_from eqb l' (S i) x with
      | Some k => Some k
      | None => if eqb x y then Some i else None
      end
  end.
Definition dict_index {A} (eqb : A -> A -> bool) (l : list A) (x : A) : res nat :=
  match index_from eqb l 0 x with
  | Some k => Ok k
  | None => Err KeyError
  end.

(** ** Lemmas about the above. *)

Lemma mapM_ok {A B} (f : A -> res B) (g : A -> B) l :
  (forall x, In x l -> f x = Ok (g x)) -> mapM f l = Ok (map g l).
Proof.
  induction l as [|x l IH]; intros H; cbn [mapM map]; [reflexivity|].
  rewrite (H x) by now left. cbn [bind].
  rewrite IH by (intros y Hy; apply H; now right). reflexivity.
Qed.

Lemma mapM_Ok_Forall2 {A B} (f : A -> res B) l l' :
  mapM f l = Ok l' <-> Forall2 (fun x y => f x = Ok y) l l'.
Proof.
  revert l'; induction l as [|x l IH]; intros l'; cbn [mapM].
  - split; intros H.
    + injection H as <-. constructor.
    + inversion H. reflexivity.
  - split; intros H.
    + destruct (f x) as [y|e] eqn:Hf; cbn [bind] in H; [|discriminate].
      destruct (mapM f l) as [ys|e] eqn:Hm; cbn [bind] in H; [|discriminate].
      injection H as <-. constructor; [exact Hf|]. now apply IH.
    + inversion H as [|? y ? ys Hf Hl]; subst. rewrite Hf. cbn [bind].
      apply IH in Hl. rewrite Hl. reflexivity.
Qed.

Lemma foldM_app {A B} (f : B -> A -> res B) l1 l2 b :
  foldM f (l1 ++ l2) b = (b' <- foldM f l1 b ;; foldM f l2 b').
Proof.
  revert b; induction l1 as [|x l1 IH]; intros b; cbn [foldM app bind]; [reflexivity|].
  destruct (f b x); cbn [bind]; [apply IH|reflexivity].
Qed.

Lemma foldM_ok {A B} (f : B -> A -> res B) (g : B -> A -> B) (P : B -> Prop) l b :
  P b ->
  (forall b x, P b -> In x l -> f b x = Ok (g b x) /\ P (g b x)) ->
  foldM f l b = Ok (fold_left g l b) /\ P (fold_left g l b).
Proof.
  revert b; induction l as [|x l IH]; intros b Hb H; cbn [foldM fold_left].
  - now split.
  - destruct (H b x Hb (or_introl eq_refl)) as [E HP]. rewrite E. cbn [bind].
    apply IH; [exact HP|]. intros b' x' Hb' Hin. apply H; [exact Hb'|now right].
Qed.

Lemma get_ok {A} (l : list A) i d : i < length l -> get l i = Ok (nth i l d).
Proof.
  intros H. unfold get. rewrite (nth_error_nth' l d H). reflexivity.
Qed.

Lemma get_err {A} (l : list A) i : length l <= i -> get l i = Err IndexError.
Proof.
  intros H. unfold get. apply nth_error_None in H. now rewrite H.
Qed.

Lemma get_Ok_lt {A} (l : list A) i a : get l i = Ok a -> i < length l /\ nth_error l i = Some a.
Proof.
  unfold get. destruct (nth_error l i) as [b|] eqn:E; [|discriminate].
  intros H; injection H as <-. split; [|reflexivity].
  apply nth_error_Some. congruence.
Qed.

Lemma get_map {A B} (f : A -> B) l i :
  get (map f l) i = (x <- get l i ;; Ok (f x)).
Proof.
  unfold get. rewrite nth_error_map. destruct (nth_error l i); reflexivity.
Qed.

Lemma pyget_nat {A} (l : list A) i : pyget l (Z.of_nat i) = get l i.
Proof.
  unfold pyget. destruct (Z.leb_spec 0 (Z.of_nat i)); [|lia]. now rewrite Nat2Z.id.
Qed.

Lemma pyget_neg {A} (l : list A) i :
  (- Z.of_nat (length l) <= i < 0)%Z -> pyget l i = get l (Z.to_nat (i + Z.of_nat (length l))).
Proof.
  intros H. unfold pyget. destruct (Z.leb_spec 0 i); [lia|].
  destruct (Z.leb_spec 0 (i + Z.of_nat (length l))); [reflexivity|lia].
Qed.

Lemma upd_length {A} (l : list A) i a : length (upd l i a) = length l.
Proof.
  revert i; induction l as [|x l IH]; intros [|i]; cbn; auto.
Qed.

Lemma nth_error_upd {A} (l : list A) i j a :
  nth_error (upd l i a) j =
  if (i =? j) && (i <? length l) then Some a else nth_error l j.
Proof.
  revert i j; induction l as [|x l IH]; intros i j.
  - cbn [upd]. destruct (Nat.ltb_spec i (length (@nil A))); [cbn in *; lia|].
    now rewrite andb_false_r.
  - destruct i as [|i], j as [|j]; cbn [upd nth_error]; try reflexivity.
    rewrite IH. cbn [length Nat.eqb]. 
    change (S i <? S (length l)) with (i <? length l). reflexivity.
Qed.

Lemma nth_upd {A} (l : list A) i j a d :
  nth j (upd l i a) d = if (i =? j) && (i <? length l) then a else nth j l d.
Proof.
  revert i j; induction l as [|x l IH]; intros i j.
  - cbn [upd]. destruct (Nat.ltb_spec i (length (@nil A))); [cbn in *; lia|].
    now rewrite andb_false_r.
  - destruct i as [|i], j as [|j]; cbn [upd nth]; try reflexivity.
    rewrite IH. cbn [length Nat.eqb]. 
    change (S i <? S (length l)) with (i <? length l). reflexivity.
Qed.

Lemma nth_upd_eq {A} (l : list A) i a d : i < length l -> nth i (upd l i a) d = a.
Proof.
  intros H. rewrite nth_upd, Nat.eqb_refl. apply Nat.ltb_lt in H. now rewrite H.
Qed.

Lemma nth_upd_neq {A} (l : list A) i j a d : i <> j -> nth j (upd l i a) d = nth j l d.
Proof.
  intros H. rewrite nth_upd. apply Nat.eqb_neq in H. now rewrite H.
Qed.

Lemma set_ok {A} (l : list A) i a : i < length l -> set_ l i a = Ok (upd l i a).
Proof.
  intros H. unfold set_. apply Nat.ltb_lt in H. now rewrite H.
Qed.

Lemma nth_ext_len {A} (l l' : list A) n d :
  length l = n -> length l' = n -> (forall i, i < n -> nth i l d = nth i l' d) -> l = l'.
Proof.
  intros H1 H2 H. apply (nth_ext l l' d d); [congruence|].
  intros i Hi. apply H. congruence.
Qed.

Lemma nth_map_seq {A} (f : nat -> A) n i d : i < n -> nth i (map f (seq 0 n)) d = f i.
Proof.
  intros H. rewrite (nth_indep _ d (f 0)) by (rewrite map_length, seq_length; exact H).
  rewrite map_nth, seq_nth by exact H. reflexivity.
Qed.

Lemma index_from_spec {A} (eqb : A -> A -> bool)
  (eqb_ok : forall x y, eqb x y = true <-> x = y) l k x :
  NoDup l -> forall i, nth_error l i = Some x -> index_from eqb l k x = Some (k + i).
Proof.
  revert k; induction l as [|y l IH]; intros k ND i Hi.
  - destruct i; discriminate.
  - inversion ND as [|? ? Hy HND]; subst. cbn [index_from].
    destruct i as [|i]; cbn [nth_error] in Hi.
    + injection Hi as ->.
      assert (N : index_from eqb l (S k) x = None).
      { clear IH HND ND. revert k. induction l as [|z l IHl]; intros k; cbn [index_from]; [reflexivity|].
        rewrite IHl by (intros Hin; apply Hy; now right).
        destruct (eqb x z) eqn:E; [|reflexivity].
        apply eqb_ok in E. subst. exfalso; apply Hy; now left. }
      rewrite N. rewrite (proj2 (eqb_ok x x) eq_refl). f_equal. lia.
    + rewrite (IH (S k) HND i Hi). f_equal. lia.
Qed.

Lemma index_from_None {A} (eqb : A -> A -> bool)
  (eqb_ok : forall x y, eqb x y = true <-> x = y) l k x :
  ~ In x l -> index_from eqb l k x = None.
Proof.
  revert k; induction l as [|y l IH]; intros k H; cbn [index_from]; [reflexivity|].
  rewrite IH by (intros Hin; apply H; now right).
  destruct (eqb x y) eqn:E; [|reflexivity].
  apply eqb_ok in E. subst. exfalso; apply H; now left.
Qed.

Lemma dict_index_ok {A} (eqb : A -> A -> bool)
  (eqb_ok : forall x y, eqb x y = true <-> x = y) l x i :
  NoDup l -> nth_error l i = Some x -> dict_index eqb l x = Ok i.
Proof.
  intros ND H. unfold dict_index. rewrite (index_from_spec eqb eqb_ok l 0 x ND i H). reflexivity.
Qed.

Lemma dict_index_err {A} (eqb : A -> A -> bool)
  (eqb_ok : forall x y, eqb x y = true <-> x = y) l x :
  ~ In x l -> dict_index eqb l x = Err KeyError.
Proof.
  intros H. unfold dict_index. now rewrite index_from_None.
Qed.

Lemma NoDup_app_intro {A} (l l' : list A) :
  NoDup l -> NoDup l' -> (forall x, In x l -> ~ In x l') -> NoDup (l ++ l').
Proof.
  induction l as [|x l IH]; intros H1 H2 H3; [exact H2|]. inversion H1; subst. cbn. constructor.
  - rewrite in_app_iff. intros [H|H]; [contradiction|]. apply (H3 x); [now left|exact H].
  - apply IH; [assumption|assumption|]. intros y Hy. apply H3. now right.
Qed.

Lemma map_repeat {A B} (f : A -> B) x k : map f (repeat x k) = repeat (f x) k.
Proof. induction k as [|k IH]; [reflexivity|]. cbn. now rewrite IH. Qed.
Lemma rev_repeat {A} (x : A) k : rev (repeat x k) = repeat x k.
Proof.
  induction k as [|k IH]; [reflexivity|]. cbn. rewrite IH. clear. induction k as [|k IH]; [reflexivity|].
  cbn. now rewrite IH.
Qed.
Lemma Forall_concat' {A} (P : A -> Prop) l : Forall (Forall P) l -> Forall P (concat l).
Proof. induction 1; [constructor|]. cbn. apply Forall_app. now split. Qed.
