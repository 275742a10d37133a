(** The function log, support/engpar_log.cpp, and the calls to it made by the API.  Only process 0 has a log.
    Simplification: the text of a message is replaced by the name of the function; everything that does not log is left out,
    and the decisions that determine which logging calls are made (number of edge types, of steps, ...) are arguments. *)
From Verif Require Import Base.
Local Open Scope Z_scope.

Inductive fname := FconstructGraph | FconstructVerts | FconstructEdges | FconstructGhosts | FremoveEdges | FdestroyData
  | FdestroyGraph | FsetOriginalOwners | FresetOwnership | FgetPartition | FmakeBalancer | Fbalance | FbalanceWeights | Finterface.
(** logFD != NULL, depth, the lines written (newest first, indentation and function), engpar_log.cpp:10-11, and whether
    original_owners of the graph at hand is not NULL *)
Record lst := mkL { l_open : bool; l_depth : Z; l_out : list (Z * fname); l_oo : bool }.
Definition prog := lst -> option lst.
Definition skip : prog := Some.
Definition seqp (p q : prog) : prog := fun s => s' <- p s ;; q s'.
Declare Scope log_scope.
Notation "p ;; q" := (seqp p q) (at level 100, right associativity) : log_scope.
Delimit Scope log_scope with log.
(** a loop that runs the body n times *)
Fixpoint timesp (n : nat) (p : prog) : prog := match n with O => skip | S k => (p ;; timesp k p)%log end.

(** EnGPar_Open_Log on process 0, engpar_log.cpp:12-17; fopen truncates *)
Definition open_log : prog := fun s => Some (mkL true 0 [] (l_oo s)).
(** EnGPar_Close_Log, engpar_log.cpp:32-36 *)
Definition close_log : prog := fun s => Some (mkL false (l_depth s) (l_out s) (l_oo s)).
(** if (EnGPar_Is_Log_Open()) EnGPar_Log_Function(message), engpar_log.cpp:22-27: assert(depth>=0) *)
Definition log_function (f : fname) : prog := fun s =>
  if l_open s then if l_depth s <? 0 then None else Some (mkL true (l_depth s + 1) ((2 * l_depth s, f) :: l_out s) (l_oo s)) else Some s.
(** if (EnGPar_Is_Log_Open()) EnGPar_End_Function(), engpar_log.cpp:28-30 *)
Definition end_function : prog := fun s => if l_open s then Some (mkL true (l_depth s - 1) (l_out s) (l_oo s)) else Some s.
Definition set_oo (b : bool) : prog := fun s => Some (mkL (l_open s) (l_depth s) (l_out s) b).
(** code that works on another graph does not change this graph's original_owners *)
Definition on_other (p : prog) : prog := fun s => s' <- p s ;; Some (mkL (l_open s') (l_depth s') (l_out s') (l_oo s)).

Local Open Scope log_scope.
(** Ngraph::destroyData, agiConstruct.cpp:507-572 *)
Definition destroyData : prog := log_function FdestroyData ;; set_oo false ;; end_function.
(** constructVerts (both forms), agiConstruct.cpp:70-138 *)
Definition constructVerts : prog := log_function FconstructVerts ;; destroyData ;; end_function.
(** constructEdges (both forms), agiConstruct.cpp:140-366 *)
Definition constructEdges : prog := log_function FconstructEdges ;; end_function.
(** constructGhosts (both forms), agiConstruct.cpp:373-471 *)
Definition constructGhosts : prog := log_function FconstructGhosts ;; end_function.
(** constructGraph, agiConstruct.cpp:44-69 *)
Definition constructGraph : prog := log_function FconstructGraph ;; constructVerts ;; constructEdges ;; constructGhosts ;; end_function.
(** removeEdges, agiConstruct.cpp:478-505: there is no EnGPar_End_Function *)
Definition removeEdges : prog := log_function FremoveEdges.
(** destroyGraph, agiConstruct.cpp:574-586, with ~Ngraph :473-475 *)
Definition destroyGraph : prog := log_function FdestroyGraph ;; destroyData ;; end_function.
(** setOriginalOwners(), agiVertex.cpp:82-96: returns early when they are set *)
Definition setOriginalOwners : prog := log_function FsetOriginalOwners ;;
  fun s => if l_oo s then Some s else (set_oo true ;; end_function) s.
(** setOriginalOwners(oos), agiVertex.cpp:98-103: assert(!original_owners), no logging *)
Definition setOriginalOwners_vec : prog := fun s => if l_oo s then None else set_oo true s.
(** resetOwnership, agiVertex.cpp:105-118, and resetPartition :120-123 *)
Definition resetOwnership : prog := log_function FresetOwnership ;; set_oo false ;; setOriginalOwners ;; end_function.
(** getPartition, agiMigrate.cpp:388-414 *)
Definition getPartition : prog := log_function FgetPartition ;; end_function.
(** migrate, agiMigrate.cpp:289-386: only the reconstruction :367-375 logs *)
Definition migrate (nt : nat) : prog := constructVerts ;; timesp nt constructEdges ;; constructGhosts ;; setOriginalOwners_vec.
(** repartition, agiMigrate.cpp:417-428 *)
Definition repartition (nt : nat) : prog := setOriginalOwners ;; migrate nt.
(** loadFromFile, agiIO.cpp:225-263 *)
Definition loadFromFile (nt : nat) : prog := constructVerts ;; timesp nt constructEdges ;; constructGhosts.
(** createBinGraph and its kin: a message at their beginning, then construction; apfGraph.cpp:14-20, binGraph.cpp:18-23, dofGraph.cpp:12-18 *)
Definition createGraph (nt : nat) : prog := log_function Finterface ;; end_function ;; constructVerts ;; timesp nt constructEdges ;; constructGhosts.
(** WeightBalancer::balance, engpar_weightBalancer.cpp:119-219: EnGPar_Log_Function is inside a comment (:122-147) *)
Definition weight_balance (peers : nat) : prog := fun s => if Nat.eqb peers 1 then Some s else end_function s.
(** balanceWeights, engpar_weightBalancer.cpp:221-231 *)
Definition balanceWeights (peers : nat) : prog := log_function FbalanceWeights ;; end_function ;; weight_balance peers.
(** Balancer::partWeightBalancer, engpar_balancer.cpp:352-403; [again] = weightGraph exists already *)
Definition partWeightBalancer (peers : nat) (again : bool) : prog :=
  on_other ((if again then destroyGraph else skip) ;; constructVerts ;; constructEdges ;; constructGhosts ;; weight_balance peers).
(** one priority of Balancer::balance, engpar_balancer.cpp:238-324; [steps] migrations happen *)
Definition balance_priority (peers nt : nat) (partw : bool) (again : bool) (steps : nat) : prog :=
  (if partw then partWeightBalancer peers again else skip) ;; timesp steps (migrate nt).
Fixpoint balance_priorities (peers nt : nat) (partw again : bool) (steps : list nat) : prog :=
  match steps with [] => skip | k :: r => balance_priority peers nt partw again k ;; balance_priorities peers nt partw true r end.
(** Balancer::balance, engpar_balancer.cpp:195-350: returns early when there is one process *)
Definition balancer_balance (peers nt : nat) (partw : bool) (steps : list nat) : prog :=
  log_function Fbalance ;; fun s => if Nat.eqb peers 1 then Some s
    else (setOriginalOwners ;; balance_priorities peers nt partw false steps ;; end_function) s.
(** engpar::balance, engpar_balancer.cpp:405-415, and ~Balancer :75-80 (destroys the weight graph) *)
Definition balance (peers nt : nat) (partw : bool) (steps : list nat) : prog :=
  log_function FmakeBalancer ;; end_function ;; balancer_balance peers nt partw steps ;;
  (if partw && negb (Nat.eqb peers 1) && negb (Nat.eqb (length steps) 0) then on_other destroyGraph else skip).

(** the API calls that log *)
Inductive call :=
  | CConstructGraph | CConstructVerts | CConstructEdges | CConstructGhosts | CRemoveEdges | CDestroyGraph
  | CSetOriginalOwners | CResetOwnership | CGetPartition | CMigrate (nt : nat) | CRepartition (nt : nat) | CLoad (nt : nat) | CCreate (nt : nat)
  | CBalance (peers nt : nat) (partw : bool) (steps : list nat) | CBalanceWeights (peers : nat).
Definition run (c : call) : prog :=
  match c with
  | CConstructGraph => constructGraph | CConstructVerts => constructVerts | CConstructEdges => constructEdges
  | CConstructGhosts => constructGhosts | CRemoveEdges => removeEdges | CDestroyGraph => destroyGraph
  | CSetOriginalOwners => setOriginalOwners | CResetOwnership => resetOwnership | CGetPartition => getPartition
  | CMigrate nt => migrate nt | CRepartition nt => repartition nt | CLoad nt => loadFromFile nt | CCreate nt => createGraph nt
  | CBalance peers nt partw steps => balance peers nt partw steps | CBalanceWeights peers => balanceWeights peers
  end.
Definition history (cs : list call) : prog := fun s => foldM (fun s c => run c s) cs s.
