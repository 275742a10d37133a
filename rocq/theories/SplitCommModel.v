(** Which collective operations every process performs, and on which communicator, in createLocalSplitInput / createGlobalSplitInput, split,
    migrate and the construction calls, and how a set of such programs runs.
    Simplifications: a collective operation (an MPI collective, a PCU reduction, or a whole PCU_Comm_Begin .. PCU_Comm_Receive phase) is one step in which
    all members of the communicator take part; the communicators duplicated by PCU (pcu_pmpi.c:29-36) are identified with the one they were made from;
    ParMETIS and Zoltan are one collective each (with Zoltan_Create and Zoltan_Destroy); failures (assert, exceptions) other than those of split itself
    and the log file are left out; the values sent are left out, except that the results of the PCU_Max_Int reductions decide what follows. *)
From Verif Require Import Base.

(** MPI_COMM_WORLD or the communicator given as largeComm; the communicators of MPI_Comm_split by colour; MPI_COMM_SELF *)
Inductive comm := CLarge | CSub (k : nat) | CSelf (r : nat).
(** the collective operations that occur *)
Inductive op := OFree | ODup | OMaxInt | OAddLong | OPhase | OAllgather | OAllreduce | OPartKway | OZCreate | OZPart | OZDestroy.
Definition event : Type := comm * op.

(** one process: the colour it passed to MPI_Comm_split, SplitInput::isOriginal, and of its graph isHyperGraph, num_types, hasCoords() *)
Record rank_data := mkRank { rk_color : nat; rk_orig : bool; rk_hyper : bool; rk_types : nat; rk_coords : bool }.
(** all processes of the large communicator *)
Definition world := list rank_data.
Definition no_rank := mkRank 0 false false 0 false.
Definition rk (w : world) (r : nat) : rank_data := nth r w no_rank.
(** the ranks (in the large communicator) of the members of a communicator *)
Definition members (w : world) (c : comm) : list nat :=
  match c with
  | CLarge => seq 0 (length w)
  | CSub k => filter (fun r => rk_color (rk w r) =? k) (seq 0 (length w))
  | CSelf r => if r <? length w then [r] else []
  end.
(** PCU_Comm_Peers *)
Definition peers (w : world) (c : comm) : nat := length (members w c).
(** PCU_Max_Int on communicator c *)
Definition max_int (w : world) (c : comm) (f : rank_data -> nat) : nat := fold_right Nat.max 0 (map (fun r => f (rk w r)) (members w c)).
Definition b2n (b : bool) : nat := if b then 1 else 0.
Definition on (c : comm) (l : list op) : list event := map (pair c) l.

(** PCU_Switch_Comm, pcu.c:724-729, pcu_pmpi.c:29-36, 38-42, 110-114 *)
Definition switch (old new : comm) : list event := on old [OFree; OFree] ++ on new [ODup; ODup].
(** createDoubleGhostTag, agiTag.cpp:177-213: a request phase and an answer phase *)
Definition ghost_tag : list op := [OPhase; OPhase].
(** constructVerts, agiConstruct.cpp:70-104 and 106-138 *)
Definition construct_verts : list op := [OAddLong].
(** the totals of constructGhosts, agiConstruct.cpp:386-413 and 440-467: two sums per edge type of a hypergraph, one otherwise *)
Definition ghost_totals (hyper : bool) (types : nat) : list op := concat (repeat (if hyper then [OAddLong; OAddLong] else [OAddLong]) types).
(** constructGhosts(unordered_map), agiConstruct.cpp:373-421, the ghost weights only when there is more than one process *)
Definition construct_ghosts_map (w : world) (c : comm) (hyper : bool) (types : nat) : list op :=
  ghost_totals hyper types ++ (if 1 <? peers w c then ghost_tag else []).
(** Ngraph::migrate, agiMigrate.cpp:289-386: the two maxima, updateGhostOwners (27-57), the vertices, the coordinates if some process has them, the
    edges of each type, and the construction *)
Definition migrate_ops (w : world) (c : comm) : list op :=
  let hyper := 0 <? max_int w c (fun d => b2n (rk_hyper d)) in
  let nt := max_int w c rk_types in
  let hasC := 0 <? max_int w c (fun d => b2n (rk_coords d)) in
  [OMaxInt; OMaxInt; OPhase; OPhase; OMaxInt] ++ (if hasC then [OPhase] else []) ++ repeat OPhase nt ++ construct_verts ++ construct_ghosts_map w c hyper nt.
Definition migrate_run (w : world) (c : comm) : list event := on c (migrate_ops w c).
(** the construction of a graph by the application: constructVerts, one constructEdges per edge type (no communication), constructGhosts with an array
    (agiConstruct.cpp:423-471, no ghost weights) *)
Definition construct_run (w : world) (c : comm) (r : nat) : list event :=
  on c (construct_verts ++ ghost_totals (rk_hyper (rk w r)) (rk_types (rk w r))).

Inductive method := GLOBAL_PARMETIS | LOCAL_PARMETIS | ZOLTAN_PHG.
(** SplitInput, engpar_split_input.h:10-33: what split reads of it *)
Record split_input := mkInput { in_small : comm; in_large : comm; in_orig : bool; in_factor : bool; in_others : bool }.
(** createLocalSplitInput, engpar_input.cpp:15-32, [others] tells whether an array is given; and createGlobalSplitInput, engpar_input.cpp:33-49.
    Both switch PCU to smallComm. *)
Definition createLocalSplitInput (w : world) (others : bool) (r : nat) (cur : comm) : list event * split_input * comm :=
  let small := CSub (rk_color (rk w r)) in
  (switch cur small, mkInput small CLarge (rk_orig (rk w r)) true others, small).
Definition createGlobalSplitInput (w : world) (r : nat) (cur : comm) : list event * split_input * comm :=
  let small := CSub (rk_color (rk w r)) in
  (switch cur small, mkInput small CLarge (rk_orig (rk w r)) false false, small).

(** EnGPar_ParMETIS, engpar_parmetis.cpp:16-163: the offsets, the renumbering of the ghosts, the partitioner *)
Definition parmetis_ops : list op := [OAllreduce; OPhase; OPartKway].
(** EnGPar_Zoltan (isLocal false), engpar_zoltan.cpp:18-80 *)
Definition zoltan_ops : list op := [OZCreate; OMaxInt; OZPart; OZDestroy].
(** expandParts, engpar_split.cpp:11-19 *)
Definition expand_ops : list op := [OAllgather].
(** split, engpar_split.cpp:21-62, on one process with PCU on [cur]; [None] is a failed assertion *)
Definition split_run (w : world) (m : method) (inp : split_input) (r : nat) (cur : comm) : option (list event * comm) :=
  let '(z, c1) := match m with
                  | ZOLTAN_PHG => (switch cur (in_large inp) ++ on (in_large inp) zoltan_ops ++ switch (in_large inp) (in_small inp), in_small inp)
                  | _ => ([], cur)
                  end in
  '(p, c2) <- (if in_orig inp then
                 match m with
                 | GLOBAL_PARMETIS => Some (on c1 parmetis_ops ++ on c1 expand_ops, c1)
                 | LOCAL_PARMETIS =>
                     if in_factor inp && in_others inp then
                       Some (switch c1 (CSelf r) ++ on (CSelf r) parmetis_ops ++ switch (CSelf r) (in_small inp) ++ on (in_small inp) expand_ops, in_small inp)
                     else None
                 | ZOLTAN_PHG => Some (on c1 expand_ops, c1)
                 end
               else Some ([], c1)) ;;
  Some (z ++ p ++ switch c2 (in_large inp) ++ migrate_run w (in_large inp), in_large inp).

(** ** running the programs of all processes *)
Definition progs := nat -> list event.
(** one collective operation is performed: all members of the communicator are at it *)
Definition coll_step (w : world) (s s' : progs) : Prop :=
  exists c o, members w c <> [] /\ (forall r, In r (members w c) -> exists t, s r = (c, o) :: t /\ s' r = t) /\ (forall r, ~ In r (members w c) -> s' r = s r).
(** k operations *)
Fixpoint coll_steps (w : world) (k : nat) (s s' : progs) : Prop :=
  match k with 0 => (forall r, s r = s' r) | S k' => exists m, coll_step w s m /\ coll_steps w k' m s' end.
Definition finished (w : world) (s : progs) : Prop := forall r, r < length w -> s r = [].
