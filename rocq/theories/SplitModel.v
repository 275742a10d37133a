(** engpar::split and expandParts, partition/Multilevel/engpar_split.cpp.
    Simplifications: the partitioner (ParMETIS or Zoltan) is an arbitrary plan; MPI_Allgather over the small communicator
    is the list of the contributions in small-rank order. *)
From Verif Require Import Base GraphModel Comm TagModel MigrateModel RepartModel.

(** A process of the large communicator that belongs to the small one: its rank there, its graph, the original_owners
    array (None = NULL) and the plan made by the partitioner. *)
Record orig := mkOrig { o_rank : nat; o_g : graph; o_oo : option (arr Z); o_plan : mplan }.
(** all processes by rank in the large communicator; None = not an original process (inp->isOriginal false) *)
Definition procs := list (option orig).

(** MPI_Comm_rank(newComm) of the process with rank p in the small communicator, engpar_split.cpp:12-16 *)
Fixpoint rank_from (R : nat) (ps : procs) (p : nat) : option Z :=
  match ps with
  | [] => None
  | Some o :: r => if o_rank o =? p then Some (Z.of_nat R) else rank_from (S R) r p
  | None :: r => rank_from (S R) r p
  end.
Definition small_size (ps : procs) : nat := length (filter (fun o => match o with Some _ => true | None => false end) ps).
(** newRanks after MPI_Allgather, engpar_split.cpp:11-16 *)
Definition new_ranks (ps : procs) : option (list Z) := mapM (rank_from 0 ps) (seq 0 (small_size ps)).

(** PCU_Switch_Comm changes what PCU_Comm_Self() answers *)
Definition with_self (g : graph) (me : Z) : graph :=
  mkGraph (hyper g) (nlv g) (ngv g) (lunmap g) (lwgts g) (gunmap g) (vmap g) (types g) (owners g) me.
(** isHyperGraph = PCU_Max_Int(isHyperGraph), agiMigrate.cpp:291 *)
Definition with_hyper (g : graph) (h : bool) : graph :=
  mkGraph h (nlv g) (ngv g) (lunmap g) (lwgts g) (gunmap g) (vmap g) (types g) (owners g) (self g).

(** relabelling of a local partition, engpar_split.cpp:44-47: the loop runs over the vertices of the plan while it changes
    their destinations *)
Definition relabel_plan (g : graph) (other_ranks : list Z) (p : mplan) : option mplan :=
  foldM (fun p h => d <- plan_get g p h ;; (if (d <? 0)%Z then None else r <- nth_error other_ranks (Z.to_nat d) ;;
           '(p', _) <- plan_insert g p h r ;; Some p')) (pl_sending p) p.

(** engpar_split.cpp:50-59 on one process: expandParts (original processes) or an empty plan (the others), switch to the
    large communicator, setOriginalOwners *)
Definition split_prep (fuel : nat) (newRanks : list Z) (Ro : nat * option orig) : option mpart :=
  let '(R, o) := Ro in
  match o with
  | Some o => g <- changeOwners (o_g o) newRanks ;; let g' := with_self g (Z.of_nat R) in
              oo <- setOriginalOwners g' (o_oo o) ;; Some (mkMP g' oo (o_plan o))
  | None => let g := empty_graph (Z.of_nat R) in
            p <- plan_new g fuel ;; oo <- setOriginalOwners g None ;; Some (mkMP g oo p)
  end.
(** agiMigrate.cpp:291: everybody learns whether the graph is a hypergraph *)
Definition unify (sts : list mpart) : list mpart :=
  let h := existsb (fun s => hyper (mp_g s)) sts in map (fun s => mkMP (with_hyper (mp_g s) h) (mp_oo s) (mp_plan s)) sts.
(** engpar::split, engpar_split.cpp:21-62, from the point where the plan is known *)
Definition split (fuel : nat) (ps : procs) (Q : list (graph * arr Z) -> Prop) : Prop :=
  exists nr sts, new_ranks ps = Some nr /\ mapM (split_prep fuel nr) (combine (seq 0 (length ps)) ps) = Some sts /\ migrate fuel (unify sts) Q.
(** one particular execution *)
Definition run_split (fuel : nat) (ps : procs) : option (list (graph * arr Z)) :=
  nr <- new_ranks ps ;; sts <- mapM (split_prep fuel nr) (combine (seq 0 (length ps)) ps) ;; run_migrate fuel (unify sts).
