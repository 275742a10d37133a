#!/usr/bin/env python3
# Writes /verif/properties.jsonl.  One tuple per property:
# (id, title, statement, quantifier, why_tests_cant, anchors)
import json, os
P = []
def p(i, t, s, q, w, a): P.append(dict(id=i, title=t, statement=s, quantifier=q, why_tests_cant=w, anchors=a))

p("C01","Vertex and edge handles decode to what they name",
  "A non-null handle obtained for local vertex number l decodes (localID) to l, and a handle obtained for edge number l of type t decodes to type t and number l; distinct (type, number) pairs have distinct handles; no valid handle is the null pointer.",
  "every number of edge types in 1..7, every type, every local index",
  "the encoding is arithmetic on unbounded indices; a test only samples (type,index) pairs",
  ["agi/agiVertex.cpp:getVertex,localID","agi/agiEdge.cpp:getEdge,localID"])
p("C02","Constructing a hypergraph keeps every pin list",
  "After constructVerts and constructEdges on a hypergraph, the pins of the i-th edge of the new type, read back through the pin iterator and globalID, are exactly the global ids given for that edge, in the order and multiplicity given; the edge's degree is the number given.",
  "every vertex list without repeated ids, every list of edges with pins (local or remote), any number of previously built edge types",
  "ranges over every graph, including empty edges, repeated pins and ghosts shared by several types",
  ["agi/agiConstruct.cpp:constructEdges","agi/agiIterate.cpp:pins,iterate","agi/agiEdge.cpp:degree"])
p("C03","Hypergraph vertex-to-edge incidence is the exact inverse of edge-to-pin",
  "Iterating the edges of a local vertex v in a constructed hypergraph yields edge e exactly as many times as v occurs among e's pins, edges in increasing order, and degree(v) is the number of iterations.",
  "every hypergraph input and every local vertex",
  "needs the compressed-row fill to be right for all degree distributions (zero degrees, repeated pins)",
  ["agi/agiConstruct.cpp:constructEdges","agi/agiVertex.cpp:degree","agi/agiIterate.cpp:edges"])
p("C04","Traditional graph out-edges are exactly the given edges",
  "After constructing a traditional graph in which each given edge starts at a local vertex, iterating edges(v) yields one edge per input edge with source v, in input order, whose v() endpoint has the destination's global id and whose u() endpoint is v.",
  "every list of (source,destination) pairs with local sources",
  "ranges over all graphs and orders; requires the CSR rows, the binary search in u() and the ghost numbering to agree",
  ["agi/agiConstruct.cpp:constructEdges","agi/agiEdge.cpp:u,v","agi/agiIterate.cpp:edges"])
p("C05","Finding the source of an edge terminates and is right",
  "In a traditional graph u(e) terminates for every edge number below the number of stored edges and returns the unique vertex whose row contains e, also in the presence of vertices without edges.",
  "every monotone offset table and every edge index inside it",
  "binary search boundary errors show only for particular runs of empty rows; non-termination cannot be tested",
  ["agi/agiEdge.cpp:u"])
p("C06","Ghost numbering is a bijection",
  "After any sequence of constructEdges calls, the ghosts are numbered consecutively after the local vertices, every remote global id appearing in any pin list has exactly one ghost, no local id is a ghost, and findGID/globalID are mutually inverse on local vertices and ghosts.",
  "every vertex list and every sequence of edge types",
  "an invariant over all construction histories",
  ["agi/agiConstruct.cpp:constructVerts,constructEdges","agi/agiVertex.cpp:globalID,findGID"])
p("C07","An edge keeps the weight it was given",
  "After construction the weight of each edge is the weight passed for it (1 when none is passed).",
  "every edge list and weight list, traditional and hypergraph",
  "the weight array and the edge array may be permuted relative to one another for inputs no test samples",
  ["agi/agiConstruct.cpp:constructEdges","agi/agiEdge.cpp:weight"])
p("C08","Ghost owners are those supplied",
  "After constructGhosts, owner(v) is this part for a local vertex, the part supplied for a ghost, and -1 for a handle that is neither.",
  "every graph and owner map covering the ghosts",
  "all graphs and maps",
  ["agi/agiConstruct.cpp:constructGhosts","agi/agiVertex.cpp:owner"])
p("C09","Global counts count each entity once",
  "After construction numGlobalVtxs is the sum of the local counts, and in a hypergraph numGlobalEdges and numGlobalPins count each distinct hyperedge once although every part holding a pin of it has a copy.",
  "every number of parts and every consistent distribution of a hypergraph",
  "ranges over all distributions of all hypergraphs over all part counts",
  ["agi/agiConstruct.cpp:constructVerts,constructGhosts","agi/agiEdge.cpp:getResidence"])
p("C10","Residence and cut are determined by pin owners",
  "The residence of an edge is exactly the set of owners of its pins; isResidentOn agrees with it, and isCut is true exactly when some pin belongs to another part.",
  "every graph, edge and part",
  "all graphs",
  ["agi/agiEdge.cpp:getResidence,isResidentOn,isCut"])
p("C11","Iterators visit everything exactly once",
  "Each iterator (local vertices, ghosts, edges of a type, edges of a vertex, pins of an edge, neighbours of a vertex) returns every element it ranges over exactly once, in increasing position, and then null.",
  "every graph; every number of edge types; every type",
  "off-by-one and stride mistakes depend on the number of types and the offsets",
  ["agi/agiIterate.cpp","agi/Iterators/*.h"])
p("C12","Neighbour iteration visits the pins of the incident edges",
  "Iterating adjacent(v,t) yields, for each edge of type t incident to v in order, all its pins in a hypergraph (including v itself) and the destination in a traditional graph, each together with its edge.",
  "every graph and vertex, including vertices with no edges and edges with no pins",
  "nested iteration with empty inner ranges",
  ["agi/agiIterate.cpp:adjacent,iterate(GraphIterator)"])
p("C13","Tags behave like arrays indexed by entity",
  "A value written with setIntTag/setDoubleTag/setLongTag is what the next get returns for that entity and no other entity's value changes.",
  "every tag kind, every entity, every sequence of sets",
  "all histories of sets",
  ["agi/agiTag.cpp"])
p("C14","Ghost tags carry the owner's value",
  "After createIntGhostTag (etc.) every ghost's tag value is the callback's value computed on the part that owns the vertex, whatever the order in which messages arrive.",
  "every distributed graph, callback and message arrival order",
  "message schedules",
  ["agi/agiTag.cpp:createIntGhostTag"])
p("C15","A migration plan is a finite map with stable iteration",
  "After any sequence of insert and clear operations, has/get report the last destination inserted since the last clear, size counts the distinct vertices, and iteration visits each planned vertex once in order of first insertion.",
  "every sequence of plan operations",
  "all histories",
  ["agi/agiMigration.cpp","agi/agiMigration.h"])
p("C16","migrate moves every vertex to exactly one part",
  "After migrate, every vertex that existed before exists on exactly one part: the planned destination if it was planned, its old part otherwise; with the same weight, coordinates and original owner, whatever the message arrival order; no vertex is invented.",
  "every number of parts, every graph, every plan, every arrival order",
  "distributed schedules times all plans",
  ["agi/agiMigrate.cpp:migrate,addVertices,sendVertex,recvVertex"])
p("C17","migrate preserves a hypergraph",
  "After migrate of a hypergraph, every part that owns a pin of a hyperedge holds exactly one copy of it, with the same global id, weight and pin list, and no other part holds a copy; no edge is lost or invented.",
  "every number of parts, consistent hypergraph, plan and arrival order",
  "distributed schedules times all plans",
  ["agi/agiMigrate.cpp:getAffected,addEdges,sendEdges,recvEdges"])
p("C18","migrate preserves a traditional graph",
  "After migrate of a traditional graph every directed edge is still present exactly once, on the part of its source, with the same weight.",
  "every number of parts, graph, plan and arrival order",
  "distributed schedules times all plans",
  ["agi/agiMigrate.cpp:getAffected,addEdges,sendEdges,recvEdges"])
p("C19","migrate leaves ghost owners correct",
  "After migrate, the owner recorded for every ghost is the part that now holds the vertex.",
  "every number of parts, consistent graph, plan and arrival order",
  "distributed schedules times all plans; staleness needs three parts",
  ["agi/agiMigrate.cpp:updateGhostOwners,recvEdges"])
p("C20","getPartition and repartition agree with ownership",
  "getPartition maps every local vertex to the part it is on relative to the original owners so that repartition on a fresh copy of the original graph reproduces the current distribution.",
  "every distribution reachable by migration",
  "histories of migrations",
  ["agi/agiMigrate.cpp:getPartition,repartition"])
p("C21","Weight migration conserves weight and transfers it to the chosen vertex",
  "Migrating weight from vertex u to vertex v lowers u's weight and raises v's weight by the planned amount, total weight is conserved and the edge flow records are antisymmetric.",
  "every plan over every distributed graph",
  "all plans and all schedules",
  ["agi/agiWeightMigrate.cpp","agi/agiWeightMigration.cpp"])
p("C22","Second adjacency is exactly two-step adjacency",
  "create_vev_adjacency(t) (create_eve_adjacency(t)) lists for each vertex (edge) the vertices sharing an edge of type t (edges of type t sharing a vertex); compressed lists have no duplicates and no self.",
  "every graph and type",
  "all graphs, all types",
  ["agi/agiConstruct.cpp:create_vev_adjacency,create_eve_adjacency"])
p("C23","Second adjacency iteration visits one row",
  "vev_begin/iterate (eve) enumerates exactly the row of the requested vertex (edge) for the requested type.",
  "every graph, number of types, type and row",
  "stride and bound errors depend on the type and number of types",
  ["agi/agiVertex.cpp","agi/agiEdge.cpp","agi/agiIterate.cpp"])
p("C24","saveToFile followed by loadFromFile restores the graph",
  "Loading, on the part of the same rank, the file written by saveToFile restores the graph and its coordinates, whatever the byte order of the two hosts: a hypergraph comes back with every array identical; a traditional graph (edges starting at local vertices) comes back with the same vertices, weights, edge ends, edge weights and ids by position, and ghost owners. This holds for every graph whose ids and counts fit the 32-bit fields of the file, whose ghosts belong to other parts and, for traditional graphs, without self loops; beyond those limits it fails (ids are truncated silently; a self loop makes saveToFile read out of bounds).",
  "every graph built through the API within the stated limits, every pair of host byte orders, every iteration order of the hash table",
  "round trip over all graphs, all id magnitudes and both byte orders",
  ["agi/agiIO.cpp: saveToFile, loadFromFile","pcu/pcu_io.c"])
p("C25","checkValidity accepts what construction builds and rejects what it should",
  "checkValidity, called by all parts, terminates and returns true on every part for every distributed graph produced by the construction API (for a traditional graph: edges start at local vertices and there is no self loop; a self loop is reported as an error, and may then leave the other parts waiting); and for an arbitrary graph, when it returns true on a part, the vertex, edge, pin and ghost conditions hold on that part and its global vertex, edge and pin counts equal the totals over all parts.",
  "every graph",
  "all graphs",
  ["agi/agiValid.cpp"])
p("C26","removeEdges removes one type and leaves the others alone",
  "After removeEdges(t) the edges of every other type are unchanged (handles, pins, weights) and new edge types can be added afterwards.",
  "every graph and type",
  "interplay of handle stride and type count over all histories",
  ["agi/agiConstruct.cpp:removeEdges,addEdgeType"])
p("C27","Message buffers return what was packed",
  "Unpacking a received message with the same sequence of sizes returns the packed bytes in order, walking past the end fails, and PCU_Comm_Unpacked is true exactly when every byte was consumed.",
  "every sequence of packs and unpacks of any size",
  "buffer growth and boundaries over all sequences",
  ["pcu/pcu_buffer.c","pcu/pcu.c:PCU_Comm_Pack,PCU_Comm_Unpack"])
p("C28","The peer tree is a correct ordered set",
  "After any sequence of insertions and removals the AA tree contains exactly the inserted-not-removed keys, once each, find succeeds exactly for members, in-order traversal is sorted, and the tree stays balanced (height at most 2*log2(n+1)).",
  "every sequence of insert and remove operations",
  "rebalancing must be right for all histories",
  ["pcu/pcu_aa.c"])
p("C29","Collectives compute the fold over all ranks",
  "PCU_Add/Min/Max over any number of processes return on every process the combination of all contributions.",
  "every number of processes (not only powers of two) and all contributions and all message interleavings",
  "process counts and schedules are unbounded",
  ["pcu/pcu_coll.c","pcu/pcu.c"])
p("C30","Scans compute prefix combinations",
  "PCU_Exscan returns on process r the sum of the contributions of processes 0..r-1; the scan the sum of 0..r.",
  "every number of processes and all contributions",
  "process counts are unbounded; power-of-two cases hide errors",
  ["pcu/pcu_coll.c:scan_up,scan_down","pcu/pcu.c:PCU_Exscan_Ints"])
p("C31","A communication phase delivers every message exactly once and then ends",
  "Between PCU_Comm_Begin and the end of the PCU_Comm_Receive loop every message sent in that phase to a process is received by it in that phase exactly once, none leaks to the next phase, and the phase terminates once all messages are received.",
  "every number of processes, message pattern, number of phases and interleaving of process steps and message deliveries",
  "termination detection is a race; schedules are unbounded",
  ["pcu/pcu_msg.c","pcu/pcu_coll.c:barrier","pcu/pcu_pmpi.c"])
p("C32","Ordered mode delivers by increasing sender",
  "With PCU_Comm_Order on, messages of a phase are delivered sorted by sender rank whatever the arrival order, with none lost or duplicated.",
  "every set of messages and arrival order",
  "arrival orders",
  ["pcu/pcu_order.c","pcu/pcu_aa.c"])
p("C33","Binary files are byte-order independent and round-trip",
  "Values written by pcu_write_* are stored big-endian regardless of the host and pcu_read_* restores them; strings round-trip including the terminator.",
  "every value and every host byte order",
  "all 2^32/2^64 values, both endiannesses",
  ["pcu/pcu_io.c","pcu/pcu_byteorder.h"])
p("C34","The imbalance metric is at least one and one only when balanced",
  "EnGPar_Get_Imbalance equals max/average over parts; it is >= 1 for a positive total and equals 1 exactly when all parts have the same weight.",
  "every number of parts and weights",
  "all weight vectors",
  ["partition/Metrics/engpar_metrics.cpp"])
p("C35","evaluatePartition reports correct averages, maxima and minima",
  "evaluatePartition(g, name) collects on every part the number of connected components minus one, the number of neighbouring parts, the weight of the local and of all vertices and, per edge type, the weight of the edges and of the cut edges of the distributed graph; the table printed holds, for each of them, max, min, average (and total, imbalance) over the parts, and every line starts with the given name.",
  "every number of edge types and parts",
  "array bounds depend on the number of types and on the length of the name; the numbers must be right for every graph and distribution",
  ["partition/engpar.cpp:evaluatePartition"])
p("C36","The disconnected count is the number of components minus one",
  "countDisconnected returns the number of connected components of the part's local graph minus one.",
  "every graph",
  "all graphs",
  ["partition/engpar.cpp:countDisconnected,bfs"])
p("C37","The iteration queue is the list of cut edges",
  "createIterationQueue yields each cut edge exactly once in iteration order and nothing else, even while elements are removed during iteration.",
  "every graph",
  "all graphs and removal histories",
  ["partition/Diffusive/src/engpar_queue.cpp:createIterationQueue","partition/Diffusive/src/engpar_queue.h"])
p("C38","Breadth-first search computes graph distances",
  "Push and pull BFS assign each edge its distance to the nearest seed, give the same result, and terminate.",
  "every graph and seed set",
  "all graphs",
  ["partition/Diffusive/src/engpar_queue.cpp:bfs_push,bfs_pull"])
p("C39","bfsSort sorts",
  "bfsSort permutes the edge list so that depth keys are ordered, neither losing nor duplicating an edge, and terminates.",
  "every array and key function",
  "all arrays including equal keys",
  ["partition/Diffusive/src/engpar_queue.cpp:bfsSort"])
p("C40","The distance queue holds the shared edges, outer edges of shallow components first",
  "On a hypergraph part with ghost vertices createDistanceQueue terminates without touching memory outside its arrays, and the queue holds each edge whose pins live on more than one part exactly once and nothing else. Call a component the edges joined by chains of shared local vertices, its core the edges of it farthest from the edges with a ghost pin: the components come in one piece, in order of the distance of their core from the border and then of their number of edges, and in each component the edges come in decreasing distance from the core. On a hypergraph part without ghosts the queue is empty, if the part has no edge or at least three; with one or two edges the call writes outside its arrays. The push and the pull search give these results alike. For traditional graphs with one-way edges the call can read outside its arrays.",
  "every hypergraph part whose ghosts are owned elsewhere, with either search",
  "all graphs, numbers of components, depths and ties",
  ["partition/Diffusive/src/engpar_queue.cpp:createDistanceQueue,bfs_push,bfs_pull,distance_visit,bfsSort"])
p("C41","Sides count shared boundary",
  "makeSides gives, for each neighbouring part, the number (weight) of cut edges shared with it, and total is the number of cut edges.",
  "every graph",
  "all graphs; fractional weights",
  ["partition/Diffusive/src/engpar_sides.h"])
p("C42","Targets send only downhill and never overshoot the difference",
  "makeTargets only gives a positive target to lighter neighbours that are not protected by a completed dimension; the amounts are at most step_factor times the weight difference times the side fraction, so the total planned outflow is bounded.",
  "every weight vector and side map",
  "all real-valued inputs",
  ["partition/Diffusive/src/engpar_targets.h"])
p("C43","Selection respects targets and plan discipline",
  "select only plans vertices of the part that lie on a queued edge, each vertex at most once, only to target parts, and stops planning weight for a part once its target is reached: the weight that the plan moves to a part exceeds its target, and the weight of the whole plan the sum of the targets, by at most one cavity (11 vertices). With minConnectivity > 1 a second pass plans the vertices left on a queued edge exactly when every vertex strongly connected to them (minConnectivity times) moves along or is planned, and sends them to the part they share most edges with.",
  "every graph, queue and targets",
  "all graphs",
  ["partition/Diffusive/src/engpar_selector.cpp:select,addCavity,selectDisconnected,isPartiallyConnected,getCavityPeers"])
p("C44","trim keeps receivers within their limits",
  "After trim, the incoming weight accepted by a part in every previously balanced dimension does not exceed the part's available capacity, whatever the arrival order, and cancel leaves a sub-plan whose weight per destination fits the granted capacity.",
  "every plan, every part count, every arrival order",
  "distributed schedules and all plans",
  ["partition/Diffusive/src/engpar_selector.cpp:acceptWeight,gatherCapacities,cancel,trim"])
p("C45","Balancing stops within the configured number of iterations",
  "balance performs at most max_iterations (and per type max_iterations_per_type) migration steps, processes criteria in priority order, and never runs forever.",
  "every step outcome sequence and configuration",
  "all outcome histories",
  ["partition/Diffusive/src/engpar_balancer.cpp:balance","partition/Diffusive/src/engpar_weightBalancer.cpp"])
p("C46","Stagnation detection follows the last three values",
  "The slope reported is a function of exactly the last three recorded values, available only once three were recorded, and a constant sequence has slope zero.",
  "every sequence of recorded values",
  "all histories",
  ["partition/Diffusive/src/engpar_sd.cpp"])
p("C47","Splitting onto a larger communicator keeps the graph and its owners right",
  "When a graph distributed over a small communicator is split onto a larger one, the owner of every vertex becomes the large-communicator rank of the process that holds it, whatever ranks the original processes have there; the old parts are on distinct processes; a LOCAL plan is relabelled through other_ranks vertex by vertex; and after the split every vertex is on exactly the process the partitioner planned, every hyperedge on exactly the processes of its pins, every ghost's owner is the process holding it, and the original owner of each vertex is the process it came from.",
  "every distribution, placement of the small communicator in the large one, plan made by the partitioner and message schedule",
  "all sizes, placements, plans and schedules",
  ["partition/Multilevel/engpar_split.cpp:expandParts","agi/agiVertex.cpp:changeOwners"])
p("C48","The CSR graph handed to ParMETIS is the vertex adjacency graph of the distributed graph",
  "vtxdist numbers the vertices contiguously, part after part; each row of adjncy has every vertex sharing an edge with the row's vertex exactly once, under its new number, with the sum of the weights of the shared edges; the matrix is symmetric without diagonal; the vertex weights are those given; the answer becomes a plan with the i-th vertex going to the i-th entry. (Directed traditional edges and LOCAL_PARMETIS on ranks other than 0 break this.)",
  "every distributed graph, every number of parts, every traversal order of the hash maps, every arrival order of the messages",
  "all graphs, distributions and schedules",
  ["partition/Multilevel/engpar_parmetis.cpp:EnGPar_ParMETIS","partition/Multilevel/engpar_split.cpp:split"])
p("C49","The binary edge-list reader covers the file exactly once and owns every vertex",
  "Across the processes the slices read, put one after the other, are the file; without a partition file every id has exactly one owner among the processes; every process receives exactly the edges whose source it owns, in file order; over all processes no edge and no vertex is lost or duplicated.",
  "every file of edges, every number of processes, every table of owners in range",
  "integer division boundaries for all sizes",
  ["interfaces/binGraph.cpp:load_edges,vert_block_ranks,exchange_edges"])
p("C50","The distributed CSR built by the binary reader is consistent",
  "In the graph built from an edge list, the neighbours of every vertex have the ids and the owners the file gives them.",
  "every edge list, number of processes and table of owners",
  "all inputs; the error needs rank >= 1",
  ["interfaces/binGraph.cpp:create_dist_csr"])
p("C51","Migration timers index in range",
  "Adding timers and then updating and reading any of them accesses its own entry.",
  "every sequence of timer names",
  "all histories",
  ["agi/agiMigrationTimers.cpp"])
p("C52","Function logging stays balanced",
  "Every API call leaves the logging depth as it found it.",
  "every call path",
  "all paths",
  ["support/engpar_log.cpp","agi/agiConstruct.cpp:removeEdges","agi/agiVertex.cpp:setOriginalOwners"])
p("C53","Array and vector construction agree",
  "constructVerts/constructEdges/constructGhosts called with raw arrays build the same graph as with vectors and maps holding the same data.",
  "every input",
  "all inputs including ghost owner lists naming unknown ids",
  ["agi/agiConstruct.cpp"])
p("C54","Changing edge weights is local",
  "setEdgeWeights(t) replaces the weights of type t in order and changes nothing else; it is rejected when sizes disagree.",
  "every graph and weight vector",
  "all inputs",
  ["agi/agiEdge.cpp:setEdgeWeights"])
p("C55","A barrier waits for everybody",
  "No process returns from PCU_Barrier before every process has entered it.",
  "every number of processes, number of barriers and interleaving",
  "all schedules",
  ["pcu/pcu_coll.c:pcu_begin_barrier,pcu_barrier"])
p("C56","A weight-migration plan accumulates what is inserted",
  "After any sequence of insert(v,u,w) calls a WeightMigration reports has(v)/has(v,u) exactly for inserted pairs, get(v,u) is the sum of the amounts inserted for (v,u), size() is the total, the iterator visits every pair with its accumulated amount, and clear() returns the plan to the empty state including size().",
  "all sequences of insert and clear calls on a WeightMigration",
  "The number of insertions, their interleaving between sources and targets and the amounts are unbounded; a unit test inserts a handful of fixed triples.",
  ["agi/agiWeightMigration.cpp:WeightMigration::insert","agi/agiWeightMigration.cpp:WeightMigration::clear","agi/agiMigration.h:WMIterator"])
p("C57","A whole run of the diffusive balancer keeps what it achieved",
  "balance() terminates without undefined behaviour; the distributed graph it leaves is the same global hypergraph with new owners; every step moves vertices only from a part to a strictly lighter part (in the current dimension), and only to parts that are below the limits of the dimensions balanced earlier; a step that stops with 'within tolerance' means that no part exceeds tolerance times average; and at the end of the whole run no part is above the limit recorded for any dimension balanced earlier, even though later dimensions moved vertices. With one process nothing changes.",
  "every hypergraph, initial distribution, list of priorities and tolerances, step factor, limits on iterations, order of message arrival and order of traversal of the unordered containers",
  "unbounded numbers of parts, vertices, edges, steps and interleavings of messages; the interplay of targets, selection, trimming, cancelling and migration over many steps",
  ["partition/Diffusive/src/engpar_balancer.cpp:Balancer::runStep,Balancer::balance","partition/Diffusive/src/engpar_targets.h","partition/Diffusive/src/engpar_weights.h","partition/Diffusive/src/engpar_queue.cpp","partition/Diffusive/src/engpar_selector.cpp","agi/agiMigration.cpp:migrate"])
p("C58","Weight diffusion conserves weight and reports the flow it caused",
  "balanceWeights-style diffusion (WeightBalancer): each step, under every schedule, is free of undefined behaviour; a vertex never plans to send more than its weight and a part is never sent more than its target (step_factor times the difference of the part weights); weight only goes to strictly lighter parts, and no vertex weight becomes negative; the total weight is conserved; the run ends after at most max_iterations rounds; everything but the vertex weights is unchanged; the flow handed back contains exactly the positive part of an antisymmetric net flow between vertices of different parts, and each part has lost exactly its net outflow. A step that reports success means every part is below tolerance times average.",
  "every distributed hypergraph with non-negative vertex weights in which each edge is stored on exactly the parts holding one of its pins, every tolerance, step factor and limit, order of message arrival and order of traversal of the unordered sets",
  "conservation over an unbounded number of steps, parts and transfers, and for every interleaving of messages",
  ["partition/Diffusive/src/engpar_weightBalancer.cpp","partition/Diffusive/src/engpar_weightSelector.cpp","agi/agiWeightMigrate.cpp:Ngraph::migrate(WeightMigration*)"])
p("C59","Edges (vertices) that share a vertex (an edge) get different colours",
  "EnGPar_KokkosColoring: the parallel construction of the edge adjacency yields, for every edge of the requested type, exactly the other edges that share a vertex with it, each once, without reading or writing outside an array and independently of the order in which threads insert, count and store; so the colouring of the edges gives different colours to edges that share a vertex, and the colouring of the vertices gives different colours to vertices that share an edge of the requested type.",
  "every hypergraph part (and, for vertices, traditional part with reversed edges), every edge type, every order of insertion into the concurrent set, of its slots, of the atomic additions, and every interleaving of the atomic fetch and the store of the filling threads",
  "the result must not depend on the interleaving of an unbounded number of threads; a test sees one interleaving and out-of-bounds reads need not fail",
  ["partition/Coloring/engpar_kokkosColoring.cpp:parallel_create_eve","partition/Coloring/engpar_kokkosColoring.cpp:EnGPar_KokkosColoring","agi/agiConstruct.cpp:Ngraph::create_vev_adjacency"])
p("C60","Zoltan is told the graph that is there and the plan is its answer",
  "EnGPar_Zoltan: the query functions never write outside the arrays Zoltan allocates from the reported sizes; the vertex query reports every vertex of the part with its weight; the hyperedge query lets Zoltan read, for every vertex, exactly the ids of the edges it is a pin of; the edge weight query reports every edge with its weight; for a traditional graph the neighbour query reports exactly the destinations of the vertex with the parts that own them; and the migration plan sends exactly the exported vertices to the processes Zoltan chose.",
  "every constructed graph or hypergraph part, every vertex, every export list with distinct local ids",
  "garbage handed to a partitioner still yields some partition, so only a proof over all parts shows that what is handed over is the graph; uninitialised entries and truncated ids are invisible on small inputs",
  ["partition/Multilevel/engpar_zoltan.cpp:getVertices","partition/Multilevel/engpar_zoltan.cpp:getHyperedges","partition/Multilevel/engpar_zoltan.cpp:getHyperedgeWeights","partition/Multilevel/engpar_zoltan.cpp:getEdges","partition/Multilevel/engpar_zoltan.cpp:EnGPar_Zoltan"])
p("C61","The graph of a distributed mesh is the mesh",
  "createAPFGraph on a consistent mesh, however it is divided: it succeeds on every part for every arrival order of the messages; the vertices of a part are the primary entities it owns, in mesh order, with weight 1; the hyperedges of each type are the entities of that dimension the part has, and the pins of each are all the primary entities touching it on any part, each once; the edges of a vertex are exactly the adjacent entities; the ghosts are exactly the pins not owned, each with its owner and the weight it has there; the reported global numbers of edges and pins are those of the whole mesh; wrong dimensions are rejected.",
  "every mesh, every division into parts with consistent copies, every list of secondary dimensions, every arrival order in the four message phases",
  "a lost pin or a wrong owner appears only for particular divisions and arrival orders; tests use a handful of meshes and look at counts",
  ["interfaces/apfGraph.cpp:setupPrimary","interfaces/apfGraph.cpp:setupSecondary","interfaces/apfGraph.cpp:connectToEdges","interfaces/apfGraph.cpp:connectToPins","interfaces/apfGraph.cpp:constructGhostVerts","interfaces/apfGraph.cpp:checkDims"])
p("C62","The graph of the degrees of freedom of a mesh",
  "createSerendipityGraph on a consistent mesh: it succeeds; there is one hyperedge for each entity that holds degrees of freedom, weighted by their number, and different entities have different ids; pins, adjacencies and ghosts are those of the mesh; the reported global number of hyperedges is the number of these entities.",
  "every order, every mesh, every division into parts, every arrival order",
  "the ids of different dimensions collide only for meshes with few entities of the higher dimension, and the global count is only wrong on several parts",
  ["interfaces/dofGraph.cpp:setupHyperedges","interfaces/dofGraph.cpp:connectToEdges","interfaces/dofGraph.cpp:connectPins","interfaces/dofGraph.cpp:hasDOFs","interfaces/dofGraph.cpp:numDOFs"])
p("C63","writeVTK writes the graph it was given",
  "writeVTK(g,prefix,tag,t) makes every part write one readable .vtu piece that shows its part: the points are the coordinates of its vertices in order, followed for a hypergraph by one point per edge at the mean of the coordinates of all of its pins (also those owned by other parts); the lines join each edge to each of its pins on this part (or the two ends of each edge of a traditional graph), every index names a point that exists, offsets and types describe these lines, and the data arrays give every point its part, its kind and its tag value. Part 0 writes an index that lists each piece once and declares the arrays the pieces contain.",
  "every distributed graph, coordinates, tag, order of message arrival and file name prefix",
  "unbounded graphs and message orders; a test that opens one picture does not see an index out of range or a wrong mean",
  ["agi/agiVTK.cpp:writeVTK,writePoints,writeCells,writePointData,getNumCells,writePVTU"])

p("C64","Zoltan is told the graph it shall cut",
  "partitioning by vertex cut describes the graph to Zoltan faithfully: the objects are the edges of the part, each with its own id; for each vertex there is one net that contains exactly the edges the vertex is an end of, with the inverse of its degree as weight; nothing is written outside the arrays whose sizes were announced. The partition that is returned gives every exported edge the part of its last export entry and no edge two parts.",
  "every constructed graph, every export list",
  "all graphs; writing one entry behind an array of Zoltan is invisible to a test",
  ["zoltan/ZoltanCallbacks.cpp:num_obj,obj_list,hg_size,hg_data,hg_ew","zoltan/ZoltanCutVertex.cpp:createPtn"])
p("C65","vertex-cut migration moves each edge to its part and links the copies of each vertex",
  "binGraph::migrate(map) of a graph without ghosts leaves part q with exactly the edges that the maps give to q and exactly the vertices at their ends, each with weight 1 and its outgoing neighbours; each vertex has, for every other part that holds it too, exactly one copy in its list of split edges, owned by that part; edge weights move with the edges, the weights of copies can be read and the number of global vertices is unchanged.",
  "every distribution of edges over processes, every map, every order of message arrival, both sizes of lid_t",
  "unbounded graphs and message orders; a wrong element size in a memcpy may pass every small test",
  ["interfaces/binGraph.cpp:binGraph::migrate,binGraph::create_dist_csr"])

p("C66","The C interface builds and reports the same graph as the C++ interface",
  "A graph passed as flat arrays through cengpar_constructVerts, cengpar_constructEdges and cengpar_constructGhosts is the graph that the C++ calls build from the same data (a ghost listed several times belongs to the owner listed last); cengpar_getPartition fills its two arrays with every vertex that started on the calling part exactly once and the part on which it is now, whatever the order in which the hash map is traversed; the options of a diffusive input handle are those of the calls made on it, in order.",
  "all valid graphs, all array contents that hold them, all histories of migrations, all traversal orders of the map, all sequences of option calls",
  "array lengths, traversal orders of the hash map and histories are unbounded",
  ["interfaces/cengpar.cpp","interfaces/cengpar.h","partition/engpar_input.h"])
p("C67","Receive loops see exactly the records sent, in order; Write and Read frame messages",
  "In a communication phase a rank's while (PCU_Comm_Receive()) loop, whose body unpacks one self-delimiting non-empty record, sees from every rank exactly the records that rank packed for it, in packing order, and nothing else, without failing, for every arrival order and with ordering on or off; messages written with PCU_Comm_Write (of any size, also empty) are obtained one by one with PCU_Comm_Read; PCU_Comm_Packed returns the number of bytes packed; PCU_Or and PCU_And are the disjunction and conjunction of the ranks' arguments.",
  "all record codings and loop bodies, all packing sequences, all numbers of ranks, all arrival orders, both ordering modes, all schedules of the reductions",
  "records, arrival orders and schedules are unbounded",
  ["pcu/pcu.c","pcu/pcu_msg.c","pcu/pcu_order.c","pcu/pcu_buffer.c"])
p("C68","Calls to the communication library at the wrong time are refused; initialisation is counted once",
  "A program that keeps to the protocol (initialise, Begin, Pack, Send, Listen until false with each message unpacked, Free) is never refused, meets no undefined behaviour and every call returns what the protocol says, over any number of phases and with ordering switched on or off between phases; any other call is refused with an error. EnGPar_Finalize frees PCU exactly when EnGPar_Initialize initialised it.",
  "all sequences of calls of one rank, all sizes, all arriving messages, all interleavings of application and EnGPar initialisation",
  "call histories are unbounded, and a test makes only the calls its author thinks of",
  ["pcu/pcu.c","pcu/pcu_msg.c","pcu/pcu_order.c","support/engpar_support.cpp"])
p("C69","Messages appear once, where they should, and errors are remembered",
  "EnGPar_Status_Message, with a verbosity not above the one set, and EnGPar_Warning_Message print their text once on standard output, EnGPar_Error_Message on standard error, in the order of the calls and with their prefix; a status message with a higher verbosity prints nothing; EnGPar_Hit_Error says whether an error was reported since the last EnGPar_Start_Test. After EnGPar_Debug_Open status messages and warnings (with mode e also errors) go to the debug file, after EnGPar_Debug_Close all messages go to the terminal again.",
  "all sequences of calls, formats, arguments, verbosities and ranks",
  "call histories and message lengths are unbounded",
  ["support/engpar_message.cpp","support/engpar_support.cpp"])
p("C70","Every rank has its own PCU debug file and what it prints is there",
"PCU_Debug_Open, called by all ranks in any interleaving, never fails and terminates; every rank then owns a file named after its rank (in a sub-directory per 2048 ranks when there are more), no two ranks share a file, no directory gets more than 2048 of them, and between PCU_Comm_Init and PCU_Comm_Free the file contains exactly what the rank printed after opening it.",
"every number of ranks, schedule, set of directories that exist already and sequence of PCU_Comm_Init/Free, PCU_Switch_Comm, PCU_Debug_Open and PCU_Debug_Print calls",
"the directories are made by some ranks and used by others, and only beyond 2048 ranks",
["pcu/pcu.c:PCU_Debug_Open,PCU_Debug_Print,safe_mkdir,append,PCU_Comm_Init,PCU_Comm_Free,PCU_Switch_Comm","pcu/pcu_io.c:pcu_open_parallel"])
p("C71","Local ids, handles and int counters do not overflow",
"As long as the local vertices, the edges and the pins of a part can be numbered with LOCAL_ID_TYPE, every access call (getVertex, getEdge, u, v, owner, the five iterators, pins, adjacent), setEdgeWeights, changeOwners and the second adjacencies return what they would return with unbounded integers; no signed computation overflows and no handle is truncated.",
"every constructed graph, call, edge type, width of lid_t and of int",
"an overflow shows only on parts with 2^29 and more entities (or one hyperedge with 46341 pins), which no test builds",
["agi/CMakeLists.txt:LOCAL_ID_TYPE","agi/agiVertex.cpp:getVertex,owner,vev_begin,vev_end","agi/agiEdge.cpp:getEdge,u,v,pins,setEdgeWeights,eve_begin,eve_end","agi/agiIterate.cpp:iterate","agi/agiConstruct.cpp:create_vev_adjacency,create_eve_adjacency"])
p("C72","Splitting and migrating never block",
"createLocalSplitInput / createGlobalSplitInput followed by split (all three methods), migrate, and the construction calls perform, on every communicator, the same collective operations in the same order on all its members, whatever each process's graph contains: no process waits for ever, and split leaves PCU on the large communicator.",
"every number of processes, division into small communicators, choice of original processes, method, graph on each process (hypergraph flag, edge types, coordinates) and order of execution",
"a mismatch of collectives shows as a hang that depends on which processes are original, on what their graphs contain and on the MPI implementation",
["partition/engpar_input.cpp:createLocalSplitInput,createGlobalSplitInput","partition/Multilevel/engpar_split.cpp:split,expandParts","partition/Multilevel/engpar_parmetis.cpp:EnGPar_ParMETIS","partition/Multilevel/engpar_zoltan.cpp:EnGPar_Zoltan","agi/agiMigrate.cpp:migrate","agi/agiConstruct.cpp:constructVerts,constructGhosts","pcu/pcu_pmpi.c:pcu_pmpi_switch"])
p("C73","Weights in floating point",
"The weights that EnGPar adds, compares and grants are doubles. Whole-number weights of total below 2^53 are added exactly by getWeight and by every reduction over the processes, in any order; any non-negative weights are added with a relative error of at most (1+2^-53)^k - 1 after k additions. The reported imbalance is max/average up to two roundings and at least 1. The limit of a completed dimension is never below the weight of a part. However the messages arrive, a part never grants more than its room in a completed dimension, and trim and cancel leave it at or below its limit: exactly for whole numbers, up to one rounding per operation otherwise. What cancel keeps of a plan brings to each part vertices and not yet shared edges of at most the granted weight, counting every edge once, and a vertex is dropped only if it would exceed a granted weight; when every request is granted in full, nothing is dropped. The amount to send to a neighbour is between 0 and the difference of the two weights and is the stated amount up to four roundings.",
"every graph, weights, number of processes, bracketing and order of a reduction, requests, plans and arrival order; doubles include infinities, signed zeros and subnormals",
"rounding errors depend on all the values and on the order of the additions; a test sees one order of one set of values",
["partition/Metrics/engpar_metrics.cpp:getWeight,EnGPar_Get_Imbalance","partition/Diffusive/src/engpar_balancer.cpp:getMaxWeight,getAvgWeight,balance","partition/Diffusive/src/engpar_selector.cpp:determineAvailability,acceptWeight,trim,cancel","partition/Diffusive/src/engpar_targets.h:Targets"])
here = os.path.dirname(os.path.abspath(__file__))
with open(os.path.join(here, "..", "properties.jsonl"), "w") as f:
    for x in P: f.write(json.dumps(x) + "\n")
print(len(P))
