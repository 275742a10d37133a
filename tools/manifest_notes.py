NOTES={
'C01':('proved','all types and numbers; handle coding is a bijection onto the non-null pointers'),
'C02':('proved','all inputs, any number of types; construction is total on valid input'),
'C03':('proved','all inputs; incident is characterised by C03_incident_meaning'),
'C04':('proved','all inputs; global form needs every source local, see C05_ghost_source_refuted'),
'C05':('partial','proved when every source is local; refuted for edges with a ghost source (counted by numLocalEdges but never stored)'),
'C06':('proved','all inputs, any number of types'),
'C07':('partial','hypergraphs proved; traditional graphs: the code attaches weights by input order to CSR positions, refuted by witness'),
'C08':('proved','all inputs (map form)'),
'C09':('proved','any number of parts, any consistent distribution of a hypergraph; empty hyperedges are resident nowhere and are not counted'),
'C10':('proved','hypergraphs: residence, isResidentOn, isCut; traditional: isCut'),
'C11':('partial','all iterators proved except pins of a traditional self loop, refuted'),
'C12':('proved','both modes'),
'C26':('partial','frame proved for every type; new types can be added unless seven slots are taken: the slot of a middle type is not reused (refuted)'),
'C53':('partial','agreement proved when the array lists known ids; refuted for an unknown ghost id'),
'C54':('partial','constant overload proved; vector overload aborts on every constructed type (refuted)'),
'C28':('proved','any history of insertions and removals; levels are unbounded integers'),
'C29':('proved','any number of ranks, any interleaving; exact arithmetic for sum/min/max, C29_ranks_agree for every operation including floating point'),
'C30':('proved','any number of ranks, any interleaving; exact arithmetic'),
'C55':('proved','any number of ranks and any interleaving'),
'C31':('proved','any number of ranks, phases, messages and interleaving; the barrier is the property C55 and a synchronous send completes when received (MPI_Issend)'),
'C32':('proved','any arrival order of messages with distinct senders'),
'C33':('proved','little and big endian hosts, any sequence of records; the bzip2 branch is not modelled'),
'C13':('partial','local vertices and edges proved for every history of writes; for ghost vertices the setter writes out of bounds and the getter reads a local cell (refuted)'),
'C14':('proved','any number of parts, any arrival orders, requires the recorded ghost owners to be correct'),
'C15':('proved','any history; destination -1 is excluded and shown to break size()/has()'),
'C17':('partial','one edge type: proved for any number of parts, plan, arrival order, and any sequence of migrations; several types: type 0 proved, the other types refuted (edges lost, type-0 edges duplicated into them)'),
'C21':('partial','Totality, antisymmetric flow record and the exact effect on every weight are proved for every graph, plan and schedule. The full property is REFUTED: everything a part receives is added to its last vertex (agiWeightMigrate.cpp:41-50 uses numLocalVtxs()-1), not to the addressed one; it holds when no part has more than one vertex.'),
'C56':('partial','has/get/size/iterator proved for every insertion sequence; clear() does not reset size() (agiWeightMigration.cpp:33-35): refuted by a witness.'),
'C22':('partial','Rows characterised for type 0 in both modes (vev, eve; compressed and not; any traversal order of the hash set). REFUTED for other types: adjacent(v)/edges(v) are called with their default type 0 (agiConstruct.cpp:634,656,690,724). In a traditional graph edges(v) are the outgoing edges, so eve lists the edges leaving an end of the edge.'),
'C46':('proved','availability, last-three window and trend proved for every history; C46_derivative_refuted: the slope weights are applied in the wrong order (oldest, newest, middle), so the slope of a straight line is not its step'),
'C51':('partial','C51_in_range_refuted: the timer index check is off for every name list; C51_unchecked_partial covers at most 15 distinct timers; the last counter and the 16th timer are refuted'),
'C36':('partial','hypergraph: proved for every part; traditional: proved when the edges between vertices of the part are symmetric, C36_directed_refuted shows the count is wrong for a directed edge'),
'C52':('partial','Proved for every history of calls outside a characterised list (C52_balanced_partial) and for the closed log (C52_closed). For the calls in the list the claim is false of the code: removeEdges, setOriginalOwners when already set (also through repartition and balance), balance in serial and balanceWeights in parallel change the depth (C52_leak_refuted); after balanceWeights the next logged call fails an assertion (C52_abort_refuted).'),
'C34':('proved','Doubles are exact rationals (rounding: C73). getWeight sums the given weights (vertices, vertices and ghosts, edges); the imbalance is max/average, >= 1, = 1 iff all equal, <= number of parts for nonnegative weights; for total 0 the code divides by zero (C34_zero_total).'),
'C42':('partial','Exactly the lighter, unprotected neighbours get a target, of the stated amount; bounds on each target and on the total; the exchange of weights for every arrival order. Refuted: sides of total 0 (weights below 1) give 0/0, and the part-weight constructor ignores both protections and inserts into the map it traverses. Rounding of a target: C73_target, C73_target_error.'),
'C37':('proved','For any part on which getResidence is defined, and in terms of the input for hypergraphs; every sweep that puts back any subset of the elements.'),
'C39':('proved','Termination, permutation within the segment, order of the keys, nothing else changed.'),
'C38':('partial','C38_push, C38_pull, C38_same: on every hypergraph part, from every nonempty seed set, both searches end, give every reachable edge its distance and list the reachable edges once each by distance; C38_push_traditional: the same for push on traditional graphs (directed). C38_pull_traditional_refuted: on a traditional graph pull reads vertex numbers as edge numbers and misses edges.'),
'C44':('partial','For hypergraph parts without ghost counting and at most five completed dimensions: C44_limits (every arrival order: the remaining plan is a sub-plan, and no receiving part ends above its limit in a completed dimension), C44_all_kept (nothing is cancelled when everything fits), C44_step (through migrate, in terms of the weights the parts report; one edge type). Refuted: more than five completed dimensions overrun an array; with countGhosts a part can end far above its limit. Rounding of the answers and of what is kept: C73_accept, C73_trim, C73_cancel.'),
'C24':('proved','Exact restoration for hypergraphs, observational for traditional graphs, over byte-level files; the limits are shown to be necessary (C24_wide_ids_refuted, C24_self_loop_refuted). Doubles are opaque 64-bit patterns; file names and opening are not modelled.'),
'C25':('proved','Acceptance for every built distributed hypergraph and every traditional graph without self loops and with local sources; soundness for arbitrary graphs; two refutations show the self-loop rejection, the wait in PCU_Add_Long and the disagreement of the parts.'),
'C49':('proved','slices, block owners, the counts/displacements/Alltoallv exchange and the per-process counts, for every file, every P>0 and every table of owners. int32 overflow of the counts is not modelled.'),
'C50':('partial','C50_adjacency says exactly, for every file and owners, what each process reports. It is the file when the k vertices met by a process are the ids 0..k-1 (C50_consistent_partial, C50_serial) and destinations owned elsewhere are always right (C50_remote); C50_consistent_refuted: in a block distribution every edge inside a process r>=1 is reported as leading to a vertex of process 0 (the ghost pass of create_dist_csr looks up local ids as if they were global); C50_unmet_refuted: an owned id that no edge of the process mentions leaves a vertex whose global id is uninitialised.'),
'C40':('proved','createDistanceQueue with both searches, the union-find over sets, the layers, the separation of the sets and bfsSort modelled. C40_queue: any hypergraph part with ghosts; C40_serial, C40_tiny_refuted: parts without ghosts (one or two edges: writes visited[2]); C40_traditional_refuted: one-way traditional graph reads parents[] of an earlier layer.'),
'C57':('partial','C57_step, C57_balance, C57_vertices: for every order of message arrival and of traversal of the unordered containers, under the hypotheses [suitable] (hypergraph with one edge type, positive weights, bounded pin counts per second-adjacency table, with the distance queue components of at least three hyperedges, at most six priorities) the run is defined, keeps the global hypergraph, and ends with every part within the limit of every completed dimension. Traditional graphs are refuted: C57_traditional_refuted (symmetric path graph with two parts: the run ends with the vertices where they were and two edges lost), C57_light_to_heavy_refuted (a part without edges to its neighbour never sends it its weight, which is taken for 0: a step moves a vertex from weight 2 to weight 4).  Missing: several edge types (refuted for migration, C17), countGhosts, floating-point rounding. The code violates the property for an empty list of priorities (C57_no_priority_refuted) and for small components with the distance queue (C57_small_component_refuted). C57_single is the one-process case; the Example is a two-part run in which vertices move.'),
'C16':('partial','vertices, weights and original owners proved for any number of parts, plan and arrival order, for hypergraphs with at least one edge type and for traditional graphs with one edge type and equal edge weights; coordinates proved when both phases unpack senders in the same order and refuted otherwise; a graph with no edge type cannot be migrated (refuted)'),
'C18':('partial','refuted in general: an edge between two vertices of one part is lost when only its target moves. Proved for any plan and arrival order (one edge type, equal edge weights): exactly those edges are lost, all others are on the part of their source as often as before; if no such edge exists nothing is lost, and with answered cut edges the result is again a correct distribution'),
'C19':('partial','proved for hypergraphs with one edge type, and for traditional graphs with one edge type in which every cut edge is answered (in particular symmetric graphs); refuted for several edge types and for traditional graphs with an unanswered cut edge'),
'C20':('partial','getPartition: any distribution, both modes; repartition and the round trip: hypergraphs with one edge type (C17 covers exactly those); traditional graphs: repartition puts every vertex where the array says and keeps exactly the surviving edges; the round trip is refuted (edges lost)'),
'C45':('partial','C45_balance: every run ends, criteria form a prefix of the priority list in order, at most max_iterations_per_type+1 migrations per criterion and max_iterations + #criteria in all, a criterion is skipped only after max_iterations migrations; C45_limits: the limit recorded for every treated criterion is the larger of its largest part weight and tolerance times the average; C45_weight_balance: at most max_iterations. The documented limits themselves are refuted (C45_limit_refuted, C45_zero_refuted), as is an empty priority list (C45_no_priorities_refuted).'),
'C58':('proved','C58_plan (one part, any targets and pin order), C58_step (one round, every message order), C58_balance (whole run). Hypotheses: [diffusible] (hypergraph with owners correct, every vertex once, edges stored where they have pins, non-negative vertex weights, side edges of weight at least one, positive total). Weights are multiples of 1/D and arithmetic does not round; integer conversions truncate as in the code. C58_orphan_undefined shows the condition on edges is needed.'),
'C59':('partial','Proved for parts all of whose pins are local (C59_adjacency, C59_edge_coloring, C59_capacity, C59_finishes) under every order and schedule, and vertex colouring over edge type 0. The code violates the property with ghost pins (out-of-bounds read, C59_ghosts_refuted: for every such part) and for vertex colouring over other types (C59_vertex_type_refuted). graph_color is represented by its contract.'),
'C60':('partial','Proved: vertex and edge-weight queries, plan, neighbour query of traditional graphs (weights only when they are all equal, because of C07), hyperedge query for parts without ghost pins and for all but the last vertex in general. The code violates the property with ghost pins (C60_ghosts_refuted) and for ids above 2^32 (C60_ids_refuted).'),
'C61':('proved','For every consistent mesh (one owner per primary entity, residence and adjacency lists agreeing between parts) and every schedule. The mesh library (numbering, residence) is data with these hypotheses.'),
'C41':('partial','Hypergraphs, whole-number weights: side toward p = weight of the cut edges with a pin on p, total = weight of the cut edges; for a distributed hypergraph the side of r toward q is the weight of the global edges with pins on both, hence symmetric. Traditional graphs: the side toward q is the weight of the stored arcs that end on q (C41_traditional_partial); distributed with one arc weight it is that weight times the number of arcs from r to q, symmetric when every arc has its reverse (C41_traditional_symmetric_partial) and refuted for a one-way arc (C41_directed_refuted). The int container drops the fraction of every weight (C41_truncated, refuted for weights 1/2), which is why the claim stays partial.'),
'C62':('partial','Proved when N_d <= P*N_(d+1) for consecutive dimensions with degrees of freedom; otherwise ids collide (refuted on one hexahedron, order 4), and the global count is refuted for every mesh on two or more parts. C62_dof_holders: an entity is a hyperedge exactly when it carries degrees of freedom; C62_quad_dofs_refuted: the numbers of degrees of freedom of a quadrilateral add up to the serendipity dimension exactly for orders up to 4.'),
'C63':('partial','Hypergraphs: for every arrival order each part writes exactly its vertices, the mean of all pins of each edge, the lines to its own pins, and the tag; the file is readable and the index lists all pieces. Traditional graphs: exact contents proved; readable if and only if no edge leaves the part (C63_traditional_refuted: the code violates the property otherwise). Prefixes of 251 characters or more overflow the name buffer (C63_prefix_refuted). Not modelled: XML text, rounding by %f, an edge without pins gives NaN.'),
'C64':('partial','objects, nets of outgoing edges, and the partition are proved; the code violates the rest: it writes one offset beyond the announced array (C64_offsets_refuted), omits incoming edges (C64_targets_refuted), miscounts pins of hypergraphs (C64_hypergraph_refuted) and writes only the first net weight (C64_weights_refuted)'),
'C65':('partial','with 64-bit lid_t edges, vertices, neighbours and copies are proved right for all maps and arrival orders; the code violates the rest: undefined with 32-bit lid_t (C65_narrow_refuted), edge weights stay behind, weights of copies unreadable, global count multiplied. Processes that hold ghosts before the call are not modelled'),
'C47':('partial','For every placement of the small communicator, plan and message order: split yields a correct distribution over the large communicator (C47_split_partial, hypergraphs with one edge type, the range where migration is right, cf. C17), expandParts renames owners (C47_expand_owners, any number of types), LOCAL plans are relabelled through other_ranks (C47_local_plan), distinct parts sit on distinct processes (C47_disjoint). Traditional graphs (one type, equal edge weights): C47_traditional_partial says exactly which arcs are left, C47_traditional_distributed_partial that nothing is lost when no arc inside a part loses only its target; otherwise the code violates the property (C47_traditional_refuted: arcs are lost). The original-owner clause is refuted when owners were recorded before the split (C47_stale_original_owner_refuted): they are not renamed. ParMETIS/Zoltan themselves are not modelled: the plan is arbitrary.'),
'C48':('partial','Hypergraphs, GLOBAL_PARMETIS: C48_numbering, C48_hypergraph, C48_entries, C48_symmetric for every distribution, hash-map order and arrival order; C48_plan. Traditional graphs that have both directions of every edge and one weight: C48_traditional_partial, C48_traditional_entries_partial, C48_traditional_symmetric_partial (several arcs between two vertices and self loops included). LOCAL_PARMETIS: right on rank 0 (C48_local), and refuted on every other rank for every part: the graph given to ParMETIS has no edges (C48_local_refuted), because owner() then answers the rank on MPI_COMM_SELF. C48_directed_refuted: a traditional edge without reverse edge to another part is recorded as an edge to vertex number 0. Missing: traditional graphs with unequal edge weights (C07: a weight belongs to a CSR position); truncation of non-integer weights.'),
'C35':('partial','On every part of a distributed hypergraph, or traditional graph with both directions of every arc inside a part, the collected values are the numbers of the graph (C35_values_hypergraph, C35_values_traditional; whole edge weights, exchanged ghost weights as C14), and with 1 or 2 edge types the table shows their maxima, minima, averages, totals (C35_report_hypergraph_partial, C35_report_traditional_partial, C35_table_partial). For no types evaluatePartition writes past its array and for 3 or more it prints an uninitialised average, whatever the values (C35_no_types_refuted, C35_many_types_refuted). Names up to 5 characters appear on every line (C35_labels_partial); any longer name overruns edge_name[30] (C35_long_name_refuted).'),
'C66':('proved','C66_construction (arrays through the C calls give the graph of build_part, last owner wins), C66_partition_arrays and C66_getPartition (every entry once, any traversal order, after any migrations), C66_options. Beside the property: weights cannot be omitted as in C++ (C66_no_weights_refuted) and option calls on a split input handle are ignored or write outside the object (C66_split_input_refuted).'),
'C67':('partial','proved: receive loops with any self-delimiting non-empty records, Write/Read framing (little-endian 64-bit sizes), Packed, both ordering modes, all arrival orders; Or/And are proved for non-negative arguments and refuted for negative ones (a negative true value)'),
'C27':('proved','any sequence of packs; buffer growth included; bytes only, no alignment; a message above INT_MAX bytes aborts in PCU_Comm_Send, and only then (C27_pack_send)'),
'C68':('partial','C68_proper: a program that keeps to the protocol runs without refusal or undefined behaviour and every call returns what the protocol says. C68_refused_partial: after any such program a forbidden call is refused except exactly those of the list `unchecked` (an equivalence). C68_refuted and the other _refuted theorems say what the excepted calls do: with ordering on (the default) Unpack, Sender and Received without a message are undefined behaviour, Listen drops unread bytes, Begin is accepted with messages waiting and the next Listen delivers messages of the old phase, switching the order off loses them; PCU_Comm_Free after Send frees buffers in flight. C68_lifecycle_partial/_refuted: EnGPar_Finalize frees exactly what EnGPar_Initialize initialised as long as the application does not initialise PCU after EnGPar did; otherwise it frees the PCU of the application. Sizes only; the behaviour is that of one rank with arbitrary arrivals.'),
'C43':('partial','C43_select: on a part of any distributed hypergraph, with any traversal orders, targets, limit and balanced dimension, constructing the selector and selecting with the sizes 2..12 is defined; every call on the plan sends a vertex of the part lying on a queued edge to a target part; no vertex is listed twice; the weight of the vertices (edges) first planned for a part exceeds its target, and the weight of all of them the total, by at most 11 times the largest load of one vertex.  C43_disconnected: the pass with minConnectivity > 1 over the edges left in the queue is undefined (first of no peers) as soon as one of them has no vertex left to plan; otherwise it plans, edge by edge, exactly the unplanned vertices of the edges whose vertices are tied (minConnectivity common occurrences) to nothing outside that is not planned, each time for the part they share most edges with, and leaves the reported weight as it was.  The bound per part holds for the part a vertex is FIRST planned for, not for the one it ends up with: C43_overshoot_refuted (13 vertices end up planned for a part with target 1).  Further: C43_empty_peers_refuted (selectDisconnected reads the first of no peers), C43_cavity_size_refuted (an edge with 100 vertices of the part overruns cav_sizes).  C43_select_traditional and C43_disconnected_traditional state the same of a part of a traditional graph: the loads are the weights of the arcs leaving a vertex, the waiting edges are arcs, each with one vertex of the part to plan (its source), ties are repeated arcs, and the second pass is undefined as soon as the source of a waiting arc is planned.'),
'C69':('partial','C69_messages: every sequence of calls without debug files, of any length: the right lines on the right stream in order. C69_hit_error: after every history, true exactly when an error was reported since the last start. C69_debug_files: where everything goes after opening the debug files (first opening). The code violates the rest: C69_close_refuted (what is printed after EnGPar_Debug_Close still goes to the debug file), C69_open_failure_refuted (closed stdout), C69_reopen_refuted (file emptied, errors never come back), C69_long_format_refuted (formats over 1016, 1006, 1008 characters overrun the buffer). Formats are lists of pieces (source, printed text); vfprintf itself is not modelled.'),
'C70':('partial','C70_debug_open: every number of ranks up to 10^9, every schedule, every set of existing directories: no mkdir fails, the call can always go on, takes at most five moves per rank, and every rank ends with its own file open (the rank that makes a directory and those that use it are ordered by the barrier only). C70_own_file, C70_fanout: distinct files, at most 2048 per directory. C70_prints: the exact contents after every history. C70_outside, C70_nested_init: misuse stops. REFUTED: a rank of ten digits (buffer without room for the dot), sub-groups after PCU_Switch_Comm (same file), a second PCU session (file emptied).'),
'C71':('partial','C71_exact: for every width w, every constructed graph whose vertices, pins and (number of types * edges) fit in w-1 bits with the factor 2 the binary search needs (predicate within), every access call returns what the unbounded model returns; C71_stored: every cell of the four arrays is bounded by the input counts. C71_second_adjacencies, C71_second_adjacencies_of_edges: same for create_vev_adjacency, create_eve_adjacency and their iteration; C71_setEdgeWeights, C71_changeOwners: exact conditions. Partial because the code violates the property at sizes that can be numbered: C71_source_lookup / C71_midpoint_refuted (u(edge) undefined for every source numbered 2^(w-2) or more), C71_edge_handle / C71_edge_handle_refuted (iterating over the edges of a vertex undefined once a handle reaches 2^(w-1), although iterating over all edges returns it), C71_handle_truncated / C71_wrong_source_refuted (u() decodes the handle in lid_t: with four edge types it returns a wrong source), C71_second_adjacency_overflow / C71_second_adjacency_refuted (one hyperedge with s pins, s*s >= 2^(wi-1)). Not covered: arithmetic inside the construction calls, gid_t.'),
'C23':('partial','C23_vev_partial, C23_eve_partial: for type 0, any number of types, both construction modes, compressed or not, any hash order: the loop visits exactly the row create_vev/eve_adjacency saw (a permutation of it without repetitions and without the item itself when compressed). REFUTED for every other type of a multi-type graph: iterate() drops the type (agiIterate.cpp:55-57, 125-127), so the documented loop never meets its end (proved for all graphs, rows and t with 0 < t < number of types).'),
'C72':('partial','C72_split: for every number of processes, colouring, set of original processes (constant on each small communicator), method, starting communicator and data on each process, creating the input and splitting never blocks (every reachable state can go on or is finished, no two members of a communicator meet in different collectives, number of steps bounded) and leaves PCU on the large communicator; C72_never_blocks_finishes: hence every maximal run ends. C72_migrate, C72_construct: same for migrate and construction; C72_construct_needed: the condition on the application is necessary. C72_split_after_switch: the local and the Zoltan split still work if PCU was moved in between; C72_global_after_switch_refuted: the global ParMETIS split then never returns (it does not switch to smallComm itself). Collectives are atomic steps and the internals of ParMETIS/Zoltan one step each; exceptions other than the assertion of split (C72_local_needs_ranks) are not modelled.'),
'C73':('partial','Proved: C73_weight_whole, C73_weight_error (getWeight, every graph and dimension, with and without ghosts), C73_reduce_whole, C73_reduce_error (every bracketing and order), C73_imbalance_whole, C73_limit, C73_accept, C73_accept_whole (any number of dimensions and requests), C73_keep, C73_keep_greedy, C73_trim, C73_trim_whole (trim and cancel together for one completed dimension: the vertices), C73_cancel, C73_cancel_whole, C73_cancel_greedy, C73_cancel_greedy_whole, C73_cancel_all_kept, C73_cancel_defined (cancel on any graph, plan and list of dimensions, whatever the order in which the sets are traversed), C73_request (what is requested is the weight of what the plan brings), C73_granted (whole numbers: when every request is granted nothing is cancelled), C73_granted_vertices (vertices alone: the same for all weights), C73_target, C73_target_error. Refuted in general: the total depends on the order of the reduction (C73_order_refuted), and an imbalance below 1 is reported for weights that are not whole numbers (C73_imbalance_refuted); with edges as a completed dimension a vertex can be dropped although the whole request was granted, because the request and the test add the same weights in different orders (C73_granted_edges_refuted). C73_transfer_whole and C73_transfer: trim and cancel together for one receiving part, any number of sending parts and any list of completed dimensions, vertices and edges: for whole numbers what arrives brings no completed dimension above its limit (or above its weight, if that was already larger), for other weights it exceeds the room by no more than the rounding of n answers and K additions. C73_accept_all, C73_transfer_all (whole numbers): when all that is planned for a part fits there with something to spare in every completed dimension, all of it is granted and nothing is cancelled; an exact fit is not enough (C73_accept_all_refuted: once the last dimension is full, later requests get nothing). Missing: the rounds of selection before and of migration after it, in doubles (the rational version is C44).'),
}
