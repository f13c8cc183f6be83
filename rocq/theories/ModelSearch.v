(** ModelSearch.v – the database writes of /repo/search.py:124-142 as a sequence of
    events, and the states of the database at every point of a run.

    A connection is modelled by the rows that are committed and the rows of the
    open transaction.  Trusted, not modelled: SQLite itself, i.e. that a process
    that dies between two events leaves exactly the committed rows in the file. *)
From Verif Require Import Base ModelPerm ModelBraid ModelPoly ModelMatrix ModelTL ModelTLMor ModelRep ModelPolymat ModelPolyRep ModelTracker ModelSql.
From Coq Require Import Ascii.
Local Open Scope nat_scope.

(** a row of good_braids (search.py:19-28) *)
Record row := mkRow { row_n : nat; row_r : nat; row_p : Z; row_length : nat; row_projlen : Z; row_gnf : list ascii }.
(** conn.execute('BEGIN TRANSACTION'), one INSERT of executemany, conn.commit() *)
Inductive dbevent := Begin | Insert (x : row) | Commit.
Record db := mkDB { committed : list row; pending : option (list row) }.
Definition db_step (d : db) (e : dbevent) : db :=
  match e, pending d with
  | Begin, _ => mkDB (committed d) (Some [])
  | Insert x, Some l => mkDB (committed d) (Some (l ++ [x]))
  | Insert x, None => mkDB (committed d) (Some [x])     (* sqlite3 opens a transaction by itself *)
  | Commit, Some l => mkDB (committed d ++ l) None
  | Commit, None => d
  end.
Definition db_run (d : db) (es : list dbevent) : db := fold_left db_step es d.
(** what is left in the file when the process dies in this state *)
Definition db_crash (d : db) : list row := committed d.

(** search.py:131-140: the rows of one save *)
Definition save_rows (S : jsum) (saved : list (stag * list nfobj)) : list row :=
  flat_map (fun '(t, bs) => map (fun b => mkRow (js_n S) (js_r S) (js_p S) (fst t) (snd t) (saved_text b)) bs) saved.
(** search.py:129-142 *)
Definition save_events (S : jsum) (saved : list (stag * list nfobj)) : list dbevent :=
  Begin :: map Insert (save_rows S saved) ++ [Commit].

Section Search.
Variables (rint : nat -> nat) (criterion : list nfobj -> parr -> res (list bool)) (tb : nat -> res (nftable (list nat))) (S : jsum)
  (order : nat -> list (stag * nat) -> list (stag * nat)).
(** search.py:125, 131-133 and 138: the buckets of save_selection and their braids;
    for a negative length there are none *)
Definition save_selection (s : strk) (k save_best : Z) : res (list (stag * list nfobj)) :=
  if (k <? 0)%Z then Ok []
  else mapM (fun t => b <- dgetE stag_eqb (st_buckets s) t ;; Ok (t, sb_braids b)) (map fst (selection (order (Z.to_nat k) (stats_rows s)) (Z.to_nat k) save_best)).
(** search.py:89-149: the tracker after the iteration for length k *)
Definition advance (s : strk) (k use_best save_best step_size : Z) : res strk :=
  if (k <? 0)%Z then Ok s
  else '(_, _, s') <- search_step rint criterion tb S order s (Z.to_nat k) use_best save_best step_size ;; Ok s'.
(** the events of a run of the main loop over the lengths k, k+1, ... (at most
    [count] of them) up to its end or to an exception *)
Fixpoint search_events (count : nat) (s : strk) (k use_best save_best step_size : Z) : list dbevent :=
  match count with
  | 0 => []
  | Datatypes.S c =>
      match save_selection s k save_best with
      | Err _ => [Begin]
      | Ok saved =>
          save_events S saved ++
          match advance s k use_best save_best step_size with
          | Err _ => []
          | Ok s' => search_events c s' (k + 1) use_best save_best step_size
          end
      end
  end.
(** the saves of the run *)
Fixpoint search_saves (count : nat) (s : strk) (k use_best save_best step_size : Z) : list (list (stag * list nfobj)) :=
  match count with
  | 0 => []
  | Datatypes.S c =>
      match save_selection s k save_best with
      | Err _ => []
      | Ok saved =>
          saved :: match advance s k use_best save_best step_size with
                   | Err _ => []
                   | Ok s' => search_saves c s' (k + 1) use_best save_best step_size
                   end
      end
  end.

(** search.py:91-102: the rows of the stats with projlen 1, and for each braid of
    these buckets the pair that is printed: canonical_decomposition(), the
    permutations as their words.  [order k] is the order of track.stats() at this
    iteration (for the lengths k < 0 the one of [order 0]). *)
Definition near_kernel_rows (s : strk) (k : Z) : list (stag * nat) :=
  filter (fun r => (snd (fst r) =? 1)%Z) (order (Z.to_nat k) (stats_rows s)).
Definition near_kernel_report (s : strk) (k : Z) : res (list (Z * list (list nat))) :=
  ls <- mapM (fun r => b <- dgetE stag_eqb (st_buckets s) (fst r) ;; mapM (canonical_decomposition tb) (sb_braids b)) (near_kernel_rows s k) ;;
  Ok (concat ls).
(** search.py:87-153: the main loop, with what it prints as near-kernel elements and
    what it saves in each iteration; [stop] is args.stop_at_projlen_1 *)
Fixpoint search_main (count : nat) (s : strk) (k use_best save_best step_size : Z) (stop : bool) : res (list (list (Z * list (list nat))) * list (list (stag * list nfobj)) * strk) :=
  match count with
  | 0 => Ok ([], [], s)
  | Datatypes.S c =>
      printed <- near_kernel_report s k ;;
      saved <- save_selection s k save_best ;;
      s' <- advance s k use_best save_best step_size ;;
      if stop && negb (length (near_kernel_rows s k) =? 0) then Ok ([printed], [saved], s')
      else '(prints, saves, s2) <- search_main c s' (k + 1) use_best save_best step_size stop ;;
           Ok (printed :: prints, saved :: saves, s2)
  end.
End Search.

(** search.py:68-70: x['length'] >= 1 *)
Definition search_criterion (bs : list nfobj) (_ : parr) : res (list bool) := Ok (map (fun b => 1 <=? length (o_factors b)) bs).
(** search.py:42-45 and main() (59-153) with a database, for arguments that parse:
    n, r, p, --bootstrap-length, --bucket-size, --use-best, --save-best, --step-size and
    --stop-at-projlen-1; the random generator is [rint].  (r, the bucket size and n are
    natural numbers here; negative ones are refused or fail elsewhere.) *)
Definition search_program (rint : nat -> nat) (tb : nat -> res (nftable (list nat))) (order : nat -> list (stag * nat) -> list (stag * nat))
    (n r : nat) (p bootstrap_length : Z) (bucket_size : nat) (use_best save_best step_size : Z) (stop : bool)
    : res (list (list (Z * list (list nat))) * list (list (stag * list nfobj)) * strk) :=
  _ <- assert_ ((3 <=? n) && (n <=? 7)) ;;
  _ <- assert_ (2 * r <=? n) ;;
  _ <- assert_ (0 <? p)%Z ;;
  S <- jones_summand n r p ;;
  _ <- count_all_of_garside_length tb n bootstrap_length ;;
  s <- st_bootstrap rint search_criterion tb S (strk_init bucket_size true) bootstrap_length ;;
  let first := (bootstrap_length - step_size + 1)%Z in
  search_main rint search_criterion tb S order (Z.to_nat (500 - first)) s first use_best save_best step_size stop.
