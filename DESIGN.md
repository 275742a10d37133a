# Formal model of SCOREC/EnGPar in Rocq (Coq 8.16.1)

## 1. Layout

`rocq/theories/`, for each area `X`:

* `XModel.v` — executable Gallina, no proofs; every definition cites file and lines in /repo, and says where it simplifies;
* `XSpec.v` (where needed) — the independent specification vocabulary (what the user passed in, what a component/distance/... is);
* `XProofs.v`, `XTop.v`, ... — lemmas;
* `XProps.v` — the theorems `Cnn_…` named in MANIFEST.json, `Print Assumptions`, and `Example`s that meet the hypotheses.

Suffixes: `_partial` — a restricted form of the property was proved; `_refuted` — the code violates the property, proved with a witness
(or for a whole class of inputs). The restriction is always in the statement and in the manifest note.

| Model file | Code modelled (in /repo) | Properties |
|---|---|---|
| `GraphModel` | agi/agiConstruct.cpp (constructVerts/Edges/Ghosts in both overloads, removeEdges), agiVertex.cpp, agiEdge.cpp, agiIterate.cpp, Iterators/*.h, agi_typeconvert.cpp | C01–C12, C26, C53, C54 |
| `TagModel` | agiTag.cpp, agiInfo.h, agiMigration.cpp (plans), ghost tag exchange | C13–C15 |
| `Comm` | one PCU phase as the graph code sees it (justified by C27, C31) | used by all distributed models |
| `MigrateModel`, `RepartModel` | agiMigrate.cpp (migrate, coordinates, getPartition, repartition, resetOwnership) | C16–C20 |
| `WeightMigModel` | agiWeightMigration.cpp, WMIterator, agiWeightMigrate.cpp | C21, C56 |
| `SecondAdjModel` | create_vev/eve_adjacency and their iterators | C22, C23 |
| `GraphIOModel`, `PcuIOModel` | agiIO.cpp over pcu_io.c, byte by byte | C24, C33 |
| `ValidModel` | agiValid.cpp | C25 |
| `PcuMsgModel`, `PcuAAModel`, `PcuCollModel` | pcu_buffer.c, pcu_msg.c, pcu_order.c, pcu_aa.c, pcu_coll.c, calling code of pcu.c | C27–C32, C55 |
| `EvalModel` | the labels of evaluatePartition (fixed buffers) | C35 |
| `CengparModel` | interfaces/cengpar.cpp (construction, getPartition, option calls) | C66 |
| `PcuRwModel`, `PcuRwSpec` | pcu/pcu.c: PCU_Comm_Write, Packed, Unpacked, Listen, Receive, Unpack/Extract, Read, Or, And, with the state of the received buffer (pcu_msg.c, pcu_order.c) | C67 |
| `PcuApiModel`, `PcuApiSpec` | pcu/pcu.c, pcu_msg.c, pcu_order.c: the state tests of every point-to-point call (sizes only; outcome returns / refused / undefined); engpar_support.cpp: EnGPar_Initialize, EnGPar_Finalize | C68 |
| `MetricsModel` | engpar_metrics.cpp, engpar_{container,sides,weights,targets}.h, evaluatePartition | C34, C35, C41, C42 |
| `ConnModel` | countDisconnected (partition/engpar.cpp) | C36 |
| `QueueModel` | engpar_queue.{h,cpp}: ShrinkingArray, bfs_push/pull, bfsSort, createIterationQueue, createDistanceQueue | C37–C40 |
| `SelectorModel` | engpar_selector.cpp: cavities, select, selectDisconnected, trim, cancel | C43, C44 |
| `BalanceModel`, `SdModel` | loops of engpar_balancer.cpp and engpar_weightBalancer.cpp, engpar_sd.cpp | C45, C46 |
| `StepModel` | runStep and balance on all parts, composed of the models above (targets, queue, selector, trim, migrate) | C57 |
| `WBalModel` | WeightSelector, WeightBalancer::runStep/balance, simplifyPlan (engpar_weightSelector.cpp, engpar_weightBalancer.cpp); weights are whole multiples of 1/D, amounts are truncated to int as in the code; traversal order of the unordered_set and of messages arbitrary | C58 |
| `ColorModel` | parallel_create_eve, EnGPar_KokkosColoring (engpar_kokkosColoring.cpp): device copies as bounded reads, Kokkos loops as threads with atomic actions in any order (the filling loop has two actions per thread), the concurrent set as a set with slots in any order; graph_color by its contract (`colored`) | C59 |
| `ZoltanModel` | the Zoltan query functions and the plan made from the export list (engpar_zoltan.cpp); Zoltan itself is its calling protocol: arrays of the announced sizes, read after the query (`zoltan_row`), an arbitrary export list; ids are reduced to 32 bits as in the code, weights exact | C60 |
| `MeshModel` | building the graph of a distributed mesh: setupPrimary, setupSecondary, connectToEdges, connectToPins, constructGhostVerts, checkDims (apfGraph.cpp), and the dofGraph versions (dofGraph.cpp); the mesh itself (apf) is data: entities, adjacency, residence, numbers (`MeshProofs1`-`6`, `MeshCheck`) |
| `VtkModel` | writeVTK (agiVTK.cpp): exchange of ghost coordinates, the numbers in the .vtu pieces and the .pvtu index; XML text and `%f` rounding omitted | C63 |
| `VcutModel` | Zoltan callbacks for vertex cuts (ZoltanCallbacks.cpp), createPtn (ZoltanCutVertex.cpp) and binGraph::migrate (binGraph.cpp:55-141) with both sizes of lid_t; Zoltan's own algorithm is arbitrary, processes that hold ghosts before the call are not modelled | C64 C65 |
| `SplitModel` | engpar_split.cpp, expandParts/changeOwners | C47 |
| `ParmetisModel` | engpar_parmetis.cpp up to and after the library call; `ParmetisTradProps` has its traditional-graph theorems | C48 |
| `BinModel` | interfaces/binGraph.cpp reader | C49, C50 |
| `TimersModel`, `LogModel` | agiMigrationTimers.cpp, engpar_log.cpp and the logging calls of the API | C51, C52 |
| `MessageModel` | engpar_message.cpp and the verbosity of engpar_support.cpp: streams as objects behind pointers, freopen, the 1024-character buffer | C69 |
| `PcuDebugModel` | PCU_Debug_Open (all ranks, interleaved), PCU_Debug_Print, pcu_open_parallel, path buffers, life cycle of PCU | C70 |
| `IntModel` | the access functions, setEdgeWeights, changeOwners and second adjacencies with lid_t of w bits and int of wi bits | C71 |
| `SplitCommModel` | sequence of collective operations and communicators of createLocal/GlobalSplitInput, split, expandParts, migrate, construction; execution of all processes | C72 |
| `FloatModel` | the sums, quotients and comparisons of getWeight, imbalance, completed limits, acceptWeight, cancel (vertices) and Targets in IEEE binary64 (Flocq) | C73 |
| `TransferFloatModel` | one receiving part and any number of senders: the requests (sendPlanWeight), the answers (acceptWeight) and what each sender keeps (cancel), in binary64 | C73 |
| `CancelFloatModel` | cancel for any list of completed dimensions (edges and vertices) and destinations in binary64, with an arbitrary traversal order of the sets of edges | C73 |

## 2. Modelling conventions

* C arrays are lists with possibly uninitialised cells; a read or write outside the array, a read of an uninitialised cell, a failed assertion
  and a null dereference yield `None` (or `False` for the predicate-transformer models). Undefined behaviour is never replaced by a default value.
  Loops are folds/structural recursion, or use fuel; running out of fuel is also `None`/`False`, and the theorems give fuel that suffices.
* `lid` and sizes are `nat`, global ids and parts `Z` or `nat`. Machine integers are unbounded except where wrap-around is the point
  (PCU ranks, SDSlope counters, file words).
* Weights: the graph stores them as opaque numbers (`Z`); where the code computes with doubles the value is an exact rational
  (`val : Z -> Q`), so floating-point rounding is not modelled there (for single functions it is, in C73). In file IO a double is an opaque 64-bit word. C29_ranks_agree holds for an
  arbitrary (non-associative) operation, hence for floating-point addition too.
* A distributed run is a list of per-part states. A PCU phase takes the messages packed by each part and delivers them in an arbitrary order
  at each receiver; `phase send recv sts Q` says that for every such order nothing is undefined and the outcome satisfies `Q`. This
  abstraction is what C27 and C31 establish of the PCU layer, which is modelled separately as an asynchronous transition system.
  C31 uses the barrier property C55; MPI itself is modelled by its matching and ordering rules (non-overtaking, synchronous send completes
  when received).
* The traversal order of `unordered_map`/`unordered_set` is either an arbitrary function (`ord`) over which the theorem quantifies, or a
  list order in places where the result is then sent through a phase with arbitrary order or only accumulated.
* Executable variants (`run_phase`, `run_migrate`, `run_balance`, …) fix one order; lemmas (`*_sound`, `*_some`) show that they are one of
  the executions quantified over, and the `Example`s use them to show that hypotheses are met.

## 3. Plan per property

| Property | Statement proved about | Proof |
|---|---|---|
| C01 | handle arithmetic (agiVertex/agiEdge) | div/mod lemmas for all types and lids |
| C02 C03 C04 C06 C07 | constructVerts/constructEdges as array-writing loops, iterators | loop invariants over the two passes, reading back through the modelled iterators |
| C05 | u(e) binary search with fuel | invariant lo/hi, measure |
| C08 C09 C10 | constructGhosts, owner, getResidence, global counts over a list of parts | induction; the lowest resident part is unique |
| C11 C12 | iterator state machines | induction over iteration count |
| C13 C14 | tag arrays; ghost tag request/response | array laws; permutation-invariant delivery |
| C15 | plan as tag array + vector | refinement to a finite map with order |
| C16–C20 | migrate on all parts + message exchange | invariants per phase, conservation over all parts; traditional graphs in `TradProofs1/2`: the exact set of surviving arcs for any plan, ghost owners under an answered cut; refutations for multi-type and traditional graphs |
| C21 C56 | weight migration | sums; refutation of the "right vertex" claim |
| C22 C23 | second adjacency build + iterators | membership equivalences; refutations for t>0 |
| C24 C33 | byte-level IO | decode∘encode; id truncation refutation |
| C25 | checkValidity | soundness for arbitrary graphs, acceptance of constructed graphs |
| C26 C54 C53 | removeEdges, setEdgeWeights, array variants | frame lemmas |
| C27 | pcu_buffer, pack/unpack | byte queue refinement |
| C28 | pcu_aa | BST + AA level invariants for insert/remove |
| C29 C30 C55 | pcu_coll schedules of all ranks, run asynchronously | invariants on segments for arbitrary size, confluence |
| C31 | pcu_msg/pcu_pmpi as a transition system (all interleavings) | inductive invariant over reachable states, termination measure |
| C32 | pcu_order over pcu_aa | sortedness + permutation |
| C34 C35 | metrics; the values of each part of a distributed hypergraph or traditional graph (EvalProps), labels (EvalModel) | inequalities over Q; sums over permutations, composition with C36 C41; bounds refutation |
| C36–C40 | bfs, queues, quicksort, union-find layers | reachability / distance specifications, loop invariants |
| C41–C44 | sides, targets, selector, trim | inequalities, capacity bounds for every traversal and arrival order |
| C45 C46 | balancer loop, SDSlope | loop bound for an arbitrary step oracle; ring-buffer refinement |
| C47 C48 | split/expandParts, ParMETIS CSR | arithmetic, list lemmas, reuse of C17 |
| C49 C50 | binGraph slices, owners, exchange, create_dist_csr | partition-of-interval lemma; refutation |
| C51 C52 | timers, log depth | refutations + partials |
| C57 | runStep/balance composed | composition of C20, C34, C40–C44 and C17 through an invariant on (owner function, limits) |
| C58 | weight plan per part, exchange, weight migration, loop | invariant of the selector (what is planned per source and per target part), reconstruction of the parts with the new weights, invariant over the run (net flow); specification in `WBalSpec.v` |
| C59 | the edge adjacency built by parallel threads, the two colourings | loading lemmas from the representation of a constructed graph; invariant of the filling loop under any schedule (fetched indices are distinct and below the row length); colouring from the contract of graph_color |
| C60 | query functions writing into arrays of the announced sizes, the reading of the compressed vertex format, the plan | loop invariants (arrays filled from the left); count of local pins from the representation of a constructed graph; plan by C15 |
| C61 | the four message phases of the construction over the parts of a mesh; consistency of the copies (`copies_ok`) as hypothesis | invariant per part (`AInv`, `TInv`) through counting, offsets and filling; received records by double counting; ghost weights as in C14; global counts by bijection |
| C62 | the same construction for the union of the dimensions with degrees of freedom, renumbered by the offsets of the code | union of consistent families is consistent when ids are disjoint (`join_ok`), offsets computed in closed form; `_refuted` for the collision and the count |
| C63 | `VtkModel`: writeVTK with its two rounds of messages (coordinates of ghosts), the numbers of the .vtu of every part and of the .pvtu | for every arrival order the exchange leaves exactly the owner's coordinates (as in C14), then each array is computed in closed form; specification `VtkSpec` names global ids only; `_refuted` for arcs that leave a traditional part and for long prefixes |
| C64 | `VcutModel`: num_obj, obj_list, hg_size, hg_data, hg_ew, createPtn | loop invariants give the arrays in closed form for every constructed graph; `_refuted` where the code leaves the announced arrays, misses incoming edges or never advances its index |
| C65 | `VcutModel`: binGraph::migrate on all processes (two rounds of messages) | `VcutSpec` states the result by pairs of global ids; invariants of the CSR construction (as for binary graph files, `BinCsr`) for the first round, of the counting sort of the copies for the second; every arrival order; `_refuted` for 32-bit lid_t, edge weights, weights of copies and the global count |
| C66 | C arrays as blocks of cells, getPartition over any traversal order | reduction to build_part; composition with C20 |
| C67 | receive loops over a reader state, loop bodies as programs of unpack calls, arrival order quantified | invariant "records left in the buffer, messages left to listen to"; composition with C27, C29, C32 |
| C68 | one rank as a state machine over calls; the protocol as a separate relation `may` on the user's view | refinement between the user's view and the library state; every forbidden call computed in every situation |
| C69 | messages, error flag, debug files | induction over the call history; the flag as existence of an error after the last start |
| C70 | PCU debug files | invariant of the transition system of all ranks; decimal numerals injective; induction over the call history |
| C71 | machine integers | every array cell bounded by the input (Rep, occs); width-parametrised functions equal the unbounded ones under `within`; loops by induction; witnesses of size 2^(w-2) for every w |
| C72 | collectives match | the programs of all processes are projections of one list of rounds; induction over the rounds (progress, preservation, matching); counting argument for the refutations |
| C73 | weights in doubles | trees of rounded additions: error bound by induction on the tree, exactness of whole numbers below 2^53; invariants of the accept and cancel loops over the reals; for cancel: after any prefix of the plan the set kept for a part is the set of edges the kept vertices bring; Flocq for single operations |

## 4. Trusted base

* Coq's kernel (8.16.1), with no flags changed. No axiom is added: no `Axiom`, `Parameter`, section-less `Variable`/`Hypothesis`, `Admitted`,
  functor or module type.
* `Print Assumptions` prints "Closed under the global context" for every theorem named in MANIFEST.json (the list of theorems is the
  table of that file; the commands are in the `*Props.v` files), **except the theorems of C73** (`FloatProps.v`, `CancelFloatProps.v`, `GrantFloatProps.v`, `TransferFloatProps.v`, `AllGrantFloatProps.v`), which are about real numbers.
  These list exactly four axioms of the standard library, on which its real numbers rest: `ClassicalDedekindReals.sig_forall_dec`,
  `ClassicalDedekindReals.sig_not_dec`, `FunctionalExtensionality.functional_extensionality_dep`, `Classical_Prop.classic`. Flocq adds none.
  C73 further trusts Flocq's definition of IEEE 754 binary64 and that the compiler evaluates double arithmetic in that format,
  rounding to nearest, without extended precision or fused operations.
  (The seven entries `Coq.ssr.ssrunder.*` that `vcheck` lists are fields of a module type in Coq's own ssreflect library, loaded
  indirectly; no theorem here depends on them.)
* Only Coq's standard library is used by the theories.
* The reading of the C/C++ source expressed by the `*Model.v` files.

Not modelled: floating-point rounding (except in C73, which has it for the functions listed there, not for whole runs); overflow of 32/64-bit integers (except in the N-graph's access functions and second adjacencies, C71, and as noted); memory allocation, leaks and deallocation; MPI,
Kokkos, Zoltan and ParMETIS internals (MPI by its matching rules, the partitioners as arbitrary answers); PUMI itself (the mesh is an
abstract incidence structure, `MeshModel`); XML text of the VTK files; test/; bzip2 branch of pcu_io.c; vfprintf; noto allocator.

## 5. Findings: properties the code violates (each a `_refuted` theorem)

| Where | What |
|---|---|
| agiConstruct.cpp constructEdges (traditional) | edges with a ghost source are counted, never stored (C05); weights are attached by input order to CSR positions (C07) |
| PinIterator, traditional self loop | one pin only (C11); makes checkValidity reject the graph (C25) and saving lose it (C24) |
| agiTag.cpp on ghost vertices | setter writes out of bounds, getter reads another vertex (C13) |
| plan with destination −1 | size()/has() disagree (C15) |
| agiMigrate.cpp | coordinates swapped when the arrival orders of two phases differ (C16); no edge type: undefined (C16); edge types > 0 lost or mixed up (C17, C19); traditional edges lost when only the target moves (C18, and hence the C20 round trip), wrong ghost owners when a cut edge is not answered (C19) |
| agiWeightMigrate.cpp | everything received goes to the last vertex (C21); clear() keeps size() (C56) |
| create_vev/eve_adjacency, iterators | type argument dropped: wrong rows, endless loop for t>0 (C22, C23) |
| agiIO.cpp | ids above 2^32 truncated (C24) |
| agiValid.cpp | parts can disagree and wait for each other (C25) |
| removeEdges | slot of a removed type not reused (C26), log depth (C52) |
| evaluatePartition | writes past array for 0 types, uninitialised average for ≥3; a name of six or more characters overruns edge_name[30] (C35) |
| cengpar (C interface) | the weights array is always read (no default); cengpar_setCutGrowthFactor casts any handle to DiffusiveInput, so on a split input it writes outside the object (C66). Not a theorem: cengpar.h declares cengpar_createLocalSplitInput(…, tol, ranks, t) but cengpar.cpp defines (…, tol, t, ranks); the definition is a C++ overload, so the C symbol is never defined |
| PCU_Or, PCU_And | implemented as max and min, so a negative "true" is lost by Or next to a 0, and And of a negative and 0 is true (C67) |
| PCU with ordering on (the default) | the state tests of pcu_msg.c are bypassed: Begin and Listen are accepted in the middle of a reception (later messages of the old phase are delivered in the new one, unread bytes dropped), Unpack/Sender/Received without a message dereference NULL, switching the order off loses the waiting messages (C68) |
| EnGPar_Finalize | handlingPCU is never reset: after one EnGPar-managed cycle, Finalize frees a PCU that the application initialised (C68) |
| countDisconnected, bfs_pull, distance queue | wrong on one-way traditional graphs (C36, C38, C40); tiny parts write out of bounds (C40, C57) |
| Sides | fractions dropped (C41), one-way arcs seen from one side only (C41_directed_refuted), 0/0 targets (C42), part-weight targets ignore protections (C42) |
| Selector | vertex re-planned, target overshot (C43); minConnectivity > 1: any queued edge left without unplanned vertices makes selectDisconnected read the first of no peers (C43); vertices tied to a ghost never move in that pass (C43); ≥100 pins overrun an array (C43); >5 completed dimensions overrun an array (C44); countGhosts breaks the limits (C44) |
| Balancer loop | iteration limits exceeded by one (C45), no priorities: undefined (C45, C57); traditional graphs: a run loses edges, and a step moves vertices to a heavier part that has no edge back (its weight reads as 0) (C57) |
| WeightSelector | a shared edge without an owned pin dereferences a null vertex (C58_orphan_undefined); all received weight goes to the last vertex (C21) |
| parallel_create_eve | copies num_local_pins entries of edge_list, which only has one entry per local pin: an out-of-bounds read as soon as an edge has a ghost pin (C59_ghosts_refuted); vertex colouring for a type other than 0 uses the edges of type 0 (C59_vertex_type_refuted) |
| engpar_zoltan.cpp getHyperedges | announces num_local_pins but writes only local incidences: with a ghost pin the edges of the last vertex contain uninitialised entries (C60_ghosts_refuted); 64-bit ids are truncated to 32 bits (C60_ids_refuted) |
| dofGraph.cpp setupHyperedges | the offset of a dimension includes the dimension itself, so with fewer faces than edges on one part (every hexahedral mesh, order 4 or more) edges and faces get the same ids and the construction aborts (C62_dof_collision_refuted); the global number of hyperedges is multiplied by the number of parts (C62_dof_global_edges_refuted); the interior count of a quadrilateral is order-3, right only for orders up to 4 (C62_quad_dofs_refuted) |
| agiVTK.cpp writeCells | for a traditional graph the local number of a ghost end is printed although ghosts have no point, so the piece is unreadable as soon as an edge leaves the part (C63_traditional_refuted) |
| agiVTK.cpp writeVTK | sprintf of the file name into char[256] overflows for prefixes of 251 characters or more (C63_prefix_refuted) |
| ZoltanCallbacks.cpp hg_data | writes vtxedge_ptr[num_lists], one entry more than announced (C64_offsets_refuted); a net lists only the outgoing edges of its vertex (C64_targets_refuted); on a hypergraph the announced number of pins is not the number written (C64_hypergraph_refuted) |
| ZoltanCallbacks.cpp hg_ew | the index is never increased: only entry 0 is written (C64_weights_refuted) |
| binGraph.cpp migrate | with 32-bit lid_t memcpy reads beyond the counts as soon as a part has two vertices (C65_narrow_refuted); num_global_verts is multiplied by the number of processes (C65_global_refuted); edge weights stay behind (C65_edge_weights_refuted); ghost_weights is never allocated (C65_ghost_weights_refuted) |
| SDSlope | weights in wrong order (C46) |
| expandParts | original owners not renamed (C47) |
| engpar::split of a traditional graph | an arc inside a part whose target leaves the part while its source stays is lost (C47_traditional_refuted) |
| engpar_parmetis.cpp | LOCAL_PARMETIS on rank ≥ 1: a graph without edges (C48); one-way edges become edges to vertex 0 (C48) |
| binGraph.cpp | local neighbours of rank ≥ 1 reported as vertices of rank 0 (C50); unmet ids uninitialised (C50) |
| agiMigrationTimers.cpp | index check off by one, 16th timer out of bounds (C51) |
| constructGhosts (array) | unknown ghost id (C53); setEdgeWeights(vector) always aborts (C54) |
| Messages | formats over 1016/1006/1008 characters overrun the buffer; after Debug_Close output stays in the debug file; a failed or repeated Debug_Open leaves a closed stdout or loses stderr (C69) |
| PCU debug files | a ten-digit rank loses a letter of the extension; after PCU_Switch_Comm to sub-groups two ranks open the same file; a second session empties the file (C70) |
| machine integers | u(edge) overflows (low+high) for sources numbered 2^(w-2) and above and decodes the handle in lid_t (with 4 types, a wrong source); num_types*edge overflows in iterate for handles of 2^(w-1) and more; create_vev_adjacency overflows an int on one hyperedge of 46341 pins; setEdgeWeights and changeOwners count in int (C71) |
| split | with GLOBAL_PARMETIS split relies on PCU still being on smallComm: after EnGPar_Switch_Comm(largeComm) it never returns when some process is not original (C72) |
| floating point | the sum over the processes depends on the order of the reduction; three processes of weight 0.1 are reported with imbalance 0.9999999999999999 (C73) |
| floating point | Selector: a request over edges that is granted in full can still lose a vertex in cancel, because weight(peerEdges) + weight(tmpEdges) adds in another order than the request (weights 0.3, 0.2, 0.1; C73_granted_edges_refuted) |

## 6. Testing the theorems

`tools/mutate.py` applies realistic bugs to the model in a scratch copy, rebuilds, and records in `seeded/LOG.jsonl` which theorems fail.
A mutant that makes an English claim false and leaves its theorem provable is a reason to tighten the theorem (field `theorems_tightened`).
