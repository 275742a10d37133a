(** MigrationTimers, agi/agiMigrationTimers.{h,cpp}.  Names are numbers, times are exact integers. *)
From Verif Require Import Base.

(** std::vector: the allocated cells and the size.  v[i] is defined by the language for i < size only; a machine that
    does not check accepts any i below the capacity ([strict] = false). *)
Record vec := mkVec { v_mem : arr Z; v_size : nat }.
(** reserve on an empty vector *)
Definition vec_reserve (n : nat) : vec := mkVec (anew n) 0.
(** push_back: grows by doubling and copies the elements *)
Definition vec_push (v : vec) (x : Z) : option vec :=
  if v_size v <? length (v_mem v) then m <- aset (v_mem v) (v_size v) x ;; Some (mkVec m (S (v_size v)))
  else m <- aset (firstn (v_size v) (v_mem v) ++ anew (Nat.max 1 (v_size v))) (v_size v) x ;; Some (mkVec m (S (v_size v))).
(** v[i] and v[i] = x *)
Definition vec_get (strict : bool) (v : vec) (i : nat) : option Z :=
  if strict && (v_size v <=? i) then None else aget (v_mem v) i.
Definition vec_set (strict : bool) (v : vec) (i : nat) (x : Z) : option vec :=
  if strict && (v_size v <=? i) then None else m <- aset (v_mem v) i x ;; Some (mkVec m (v_size v)).

(** agiMigrationTimers.h:30-33 *)
Record timers := mkTm { tm_times : vec; tm_counts : vec; tm_names : list nat; tm_idx : list (nat * nat) }.
Fixpoint tm_find (m : list (nat * nat)) (n : nat) : option nat :=
  match m with [] => None | (k, i) :: r => if k =? n then Some i else tm_find r n end.
(** MigrationTimers::MigrationTimers, agiMigrationTimers.cpp:7-12 *)
Definition tm_new : timers := mkTm (vec_reserve 16) (vec_reserve 16) [] [].
(** nameToIdx.size() *)
Definition tm_size (t : timers) : nat := length (nodup Nat.eq_dec (map fst (tm_idx t))).
(** addTimer, agiMigrationTimers.cpp:17-24 *)
Definition tm_add (strict : bool) (t : timers) (name : nat) : option timers :=
  let idx := tm_size t + 1 in
  c <- vec_push (tm_counts t) 0%Z ;; ts <- vec_push (tm_times t) 0%Z ;;
  ts' <- vec_set strict ts idx 0%Z ;;
  Some (mkTm ts' c (tm_names t ++ [name]) ((name, idx) :: tm_idx t)).
(** getTimerIdx, agiMigrationTimers.cpp:67-74: exits when the name is unknown *)
Definition tm_update (strict : bool) (t : timers) (u : nat * Z) : option timers :=
  i <- tm_find (tm_idx t) (fst u) ;;
  x <- vec_get strict (tm_times t) i ;; ts <- vec_set strict (tm_times t) i (x + snd u)%Z ;;
  (* counts[idx]++: a cell that was never written yields some value that is never looked at here, so the
     increment leaves it unwritten *)
  c <- (match vec_get strict (tm_counts t) i with
        | Some k => vec_set strict (tm_counts t) i (k + 1)%Z
        | None => if strict || (length (v_mem (tm_counts t)) <=? i) then None else Some (tm_counts t) end) ;;
  Some (mkTm ts c (tm_names t) (tm_idx t)).
(** getTime, getCount: agiMigrationTimers.cpp:32-40 *)
Definition tm_time (strict : bool) (t : timers) (name : nat) : option Z := i <- tm_find (tm_idx t) name ;; vec_get strict (tm_times t) i.
Definition tm_count (strict : bool) (t : timers) (name : nat) : option Z := i <- tm_find (tm_idx t) name ;; vec_get strict (tm_counts t) i.
