{"id": "C01", "title": "Vertex and edge handles decode to what they name", "statement": "A non-null handle obtained for local vertex number l decodes (localID) to l, and a handle obtained for edge number l of type t decodes to type t and number l; distinct (type, number) pairs have distinct handles; no valid handle is the null pointer.", "quantifier": "every number of edge types in 1..7, every type, every local index", "why_tests_cant": "the encoding is arithmetic on unbounded indices; a test only samples (type,index) pairs", "anchors": ["agi/agiVertex.cpp:getVertex,localID", "agi/agiEdge.cpp:getEdge,localID"]}
{"id": "C02", "title": "Constructing a hypergraph keeps every pin list", "statement": "After constructVerts and constructEdges on a hypergraph, the pins of the i-th edge of the new type, read back through the pin iterator and globalID, are exactly the global ids given for that edge, in the order and multiplicity given; the edge's degree is the number given.", "quantifier": "every vertex list without repeated ids, every list of edges with pins (local or remote), any number of previously built edge types", "why_tests_cant": "ranges over every graph, including empty edges, repeated pins and ghosts shared by several types", "anchors": ["agi/agiConstruct.cpp:constructEdges", "agi/agiIterate.cpp:pins,iterate", "agi/agiEdge.cpp:degree"]}
{"id": "C03", "title": "Hypergraph vertex-to-edge incidence is the exact inverse of edge-to-pin", "statement": "Iterating the edges of a local vertex v in a constructed hypergraph yields edge e exactly as many times as v occurs among e's pins, edges in increasing order, and degree(v) is the number of iterations.", "quantifier": "every hypergraph input and every local vertex", "why_tests_cant": "needs the compressed-row fill to be right for all degree distributions (zero degrees, repeated pins)", "anchors": ["agi/agiConstruct.cpp:constructEdges", "agi/agiVertex.cpp:degree", "agi/agiIterate.cpp:edges"]}
{"id": "C04", "title": "Traditional graph out-edges are exactly the given edges", "statement": "After constructing a traditional graph in which each given edge starts at a local vertex, iterating edges(v) yields one edge per input edge with source v, in input order, whose v() endpoint has the destination's global id and whose u() endpoint is v.", "quantifier": "every list of (source,destination) pairs with local sources", "why_tests_cant": "ranges over all graphs and orders; requires the CSR rows, the binary search in u() and the ghost numbering to agree", "anchors": ["agi/agiConstruct.cpp:constructEdges", "agi/agiEdge.cpp:u,v", "agi/agiIterate.cpp:edges"]}
{"id": "C05", "title": "Finding the source of an edge terminates and is right", "statement": "In a traditional graph u(e) terminates for every edge number below the number of stored edges and returns the unique vertex whose row contains e, also in the presence of vertices without edges.", "quantifier": "every monotone offset table and every edge index inside it", "why_tests_cant": "binary search boundary errors show only for particular runs of empty rows; non-termination cannot be tested", "anchors": ["agi/agiEdge.cpp:u"]}
{"id": "C06", "title": "Ghost numbering is a bijection", "statement": "After any sequence of constructEdges calls, the ghosts are numbered consecutively after the local vertices, every remote global id appearing in any pin list has exactly one ghost, no local id is a ghost, and findGID/globalID are mutually inverse on local vertices and ghosts.", "quantifier": "every vertex list and every sequence of edge types", "why_tests_cant": "an invariant over all construction histories", "anchors": ["agi/agiConstruct.cpp:constructVerts,constructEdges", "agi/agiVertex.cpp:globalID,findGID"]}
{"id": "C07", "title": "An edge keeps the weight it was given", "statement": "After construction the weight of each edge is the weight passed for it (1 when none is passed).", "quantifier": "every edge list and weight list, traditional and hypergraph", "why_tests_cant": "the weight array and the edge array may be permuted relative to one another for inputs no test samples", "anchors": ["agi/agiConstruct.cpp:constructEdges", "agi/agiEdge.cpp:weight"]}
{"id": "C08", "title": "Ghost owners are those supplied", "statement": "After constructGhosts, owner(v) is this part for a local vertex, the part supplied for a ghost, and -1 for a handle that is neither.", "quantifier": "every graph and owner map covering the ghosts", "why_tests_cant": "all graphs and maps", "anchors": ["agi/agiConstruct.cpp:constructGhosts", "agi/agiVertex.cpp:owner"]}
{"id": "C09", "title": "Global counts count each entity once", "statement": "After construction numGlobalVtxs is the sum of the local counts, and in a hypergraph numGlobalEdges and numGlobalPins count each distinct hyperedge once although every part holding a pin of it has a copy.", "quantifier": "every number of parts and every consistent distribution of a hypergraph", "why_tests_cant": "ranges over all distributions of all hypergraphs over all part counts", "anchors": ["agi/agiConstruct.cpp:constructVerts,constructGhosts", "agi/agiEdge.cpp:getResidence"]}
{"id": "C10", "title": "Residence and cut are determined by pin owners", "statement": "The residence of an edge is exactly the set of owners of its pins; isResidentOn agrees with it, and isCut is true exactly when some pin belongs to another part.", "quantifier": "every graph, edge and part", "why_tests_cant": "all graphs", "anchors": ["agi/agiEdge.cpp:getResidence,isResidentOn,isCut"]}
{"id": "C11", "title": "Iterators visit everything exactly once", "statement": "Each iterator (local vertices, ghosts, edges of a type, edges of a vertex, pins of an edge, neighbours of a vertex) returns every element it ranges over exactly once, in increasing position, and then null.", "quantifier": "every graph; every number of edge types; every type", "why_tests_cant": "off-by-one and stride mistakes depend on the number of types and the offsets", "anchors": ["agi/agiIterate.cpp", "agi/Iterators/*.h"]}
{"id": "C12", "title": "Neighbour iteration visits the pins of the incident edges", "statement": "Iterating adjacent(v,t) yields, for each edge of type t incident to v in order, all its pins in a hypergraph (including v itself) and the destination in a traditional graph, each together with its edge.", "quantifier": "every graph and vertex, including vertices with no edges and edges with no pins", "why_tests_cant": "nested iteration with empty inner ranges", "anchors": ["agi/agiIterate.cpp:adjacent,iterate(GraphIterator)"]}
{"id": "C13", "title": "Tags behave like arrays indexed by entity", "statement": "A value written with setIntTag/setDoubleTag/setLongTag is what the next get returns for that entity and no other entity's value changes.", "quantifier": "every tag kind, every entity, every sequence of sets", "why_tests_cant": "all histories of sets", "anchors": ["agi/agiTag.cpp"]}
{"id": "C14", "title": "Ghost tags carry the owner's value", "statement": "After createIntGhostTag (etc.) every ghost's tag value is the callback's value computed on the part that owns the vertex, whatever the order in which messages arrive.", "quantifier": "every distributed graph, callback and message arrival order", "why_tests_cant": "message schedules", "anchors": ["agi/agiTag.cpp:createIntGhostTag"]}
{"id": "C15", "title": "A migration plan is a finite map with stable iteration", "statement": "After any sequence of insert and clear operations, has/get report the last destination inserted since the last clear, size counts the distinct vertices, and iteration visits each planned vertex once in order of first insertion.", "quantifier": "every sequence of plan operations", "why_tests_cant": "all histories", "anchors": ["agi/agiMigration.cpp", "agi/agiMigration.h"]}
{"id": "C16", "title": "migrate moves every vertex to exactly one part", "statement": "After migrate, every vertex that existed before exists on exactly one part: the planned destination if it was planned, its old part otherwise; with the same weight, coordinates and original owner, whatever the message arrival order; no vertex is invented.", "quantifier": "every number of parts, every graph, every plan, every arrival order", "why_tests_cant": "distributed schedules times all plans", "anchors": ["agi/agiMigrate.cpp:migrate,addVertices,sendVertex,recvVertex"]}
{"id": "C17", "title": "migrate preserves a hypergraph", "statement": "After migrate of a hypergraph, every part that owns a pin of a hyperedge holds exactly one copy of it, with the same global id, weight and pin list, and no other part holds a copy; no edge is lost or invented.", "quantifier": "every number of parts, consistent hypergraph, plan and arrival order", "why_tests_cant": "distributed schedules times all plans", "anchors": ["agi/agiMigrate.cpp:getAffected,addEdges,sendEdges,recvEdges"]}
{"id": "C18", "title": "migrate preserves a traditional graph", "statement": "After migrate of a traditional graph every directed edge is still present exactly once, on the part of its source, with the same weight.", "quantifier": "every number of parts, graph, plan and arrival order", "why_tests_cant": "distributed schedules times all plans", "anchors": ["agi/agiMigrate.cpp:getAffected,addEdges,sendEdges,recvEdges"]}
{"id": "C19", "title": "migrate leaves ghost owners correct", "statement": "After migrate, the owner recorded for every ghost is the part that now holds the vertex.", "quantifier": "every number of parts, consistent graph, plan and arrival order", "why_tests_cant": "distributed schedules times all plans; staleness needs three parts", "anchors": ["agi/agiMigrate.cpp:updateGhostOwners,recvEdges"]}
{"id": "C20", "title": "getPartition and repartition agree with ownership", "statement": "getPartition maps every local vertex to the part it is on relative to the original owners so that repartition on a fresh copy of the original graph reproduces the current distribution.", "quantifier": "every distribution reachable by migration", "why_tests_cant": "histories of migrations", "anchors": ["agi/agiMigrate.cpp:getPartition,repartition"]}
{"id": "C21", "title": "Weight migration conserves weight and transfers it to the chosen vertex", "statement": "Migrating weight from vertex u to vertex v lowers u's weight and raises v's weight by the planned amount, total weight is conserved and the edge flow records are antisymmetric.", "quantifier": "every plan over every distributed graph", "why_tests_cant": "all plans and all schedules", "anchors": ["agi/agiWeightMigrate.cpp", "agi/agiWeightMigration.cpp"]}
{"id": "C22", "title": "Second adjacency is exactly two-step adjacency", "statement": "create_vev_adjacency(t) (create_eve_adjacency(t)) lists for each vertex (edge) the vertices sharing an edge of type t (edges of type t sharing a vertex); compressed lists have no duplicates and no self.", "quantifier": "every graph and type", "why_tests_cant": "all graphs, all types", "anchors": ["agi/agiConstruct.cpp:create_vev_adjacency,create_eve_adjacency"]}
{"id": "C23", "title": "Second adjacency iteration visits one row", "statement": "vev_begin/iterate (eve) enumerates exactly the row of the requested vertex (edge) for the requested type.", "quantifier": "every graph, number of types, type and row", "why_tests_cant": "stride and bound errors depend on the type and number of types", "anchors": ["agi/agiVertex.cpp", "agi/agiEdge.cpp", "agi/agiIterate.cpp"]}
{"id": "C24", "title": "saveToFile followed by loadFromFile restores the graph", "statement": "Loading, on the part of the same rank, the file written by saveToFile restores the graph and its coordinates, whatever the byte order of the two hosts: a hypergraph comes back with every array identical; a traditional graph (edges starting at local vertices) comes back with the same vertices, weights, edge ends, edge weights and ids by position, and ghost owners. This holds for every graph whose ids and counts fit the 32-bit fields of the file, whose ghosts belong to other parts and, for traditional graphs, without self loops; beyond those limits it fails (ids are truncated silently; a self loop makes saveToFile read out of bounds).", "quantifier": "every graph built through the API within the stated limits, every pair of host byte orders, every iteration order of the hash table", "why_tests_cant": "round trip over all graphs, all id magnitudes and both byte orders", "anchors": ["agi/agiIO.cpp: saveToFile, loadFromFile", "pcu/pcu_io.c"]}
{"id": "C25", "title": "checkValidity accepts what construction builds and rejects what it should", "statement": "checkValidity, called by all parts, terminates and returns true on every part for every distributed graph produced by the construction API (for a traditional graph: edges start at local vertices and there is no self loop; a self loop is reported as an error, and may then leave the other parts waiting); and for an arbitrary graph, when it returns true on a part, the vertex, edge, pin and ghost conditions hold on that part and its global vertex, edge and pin counts equal the totals over all parts.", "quantifier": "every graph", "why_tests_cant": "all graphs", "anchors": ["agi/agiValid.cpp"]}
{"id": "C26", "title": "removeEdges removes one type and leaves the others alone", "statement": "After removeEdges(t) the edges of every other type are unchanged (handles, pins, weights) and new edge types can be added afterwards.", "quantifier": "every graph and type", "why_tests_cant": "interplay of handle stride and type count over all histories", "anchors": ["agi/agiConstruct.cpp:removeEdges,addEdgeType"]}
{"id": "C27", "title": "Message buffers return what was packed", "statement": "Unpacking a received message with the same sequence of sizes returns the packed bytes in order, walking past the end fails, and PCU_Comm_Unpacked is true exactly when every byte was consumed.", "quantifier": "every sequence of packs and unpacks of any size", "why_tests_cant": "buffer growth and boundaries over all sequences", "anchors": ["pcu/pcu_buffer.c", "pcu/pcu.c:PCU_Comm_Pack,PCU_Comm_Unpack"]}
{"id": "C28", "title": "The peer tree is a correct ordered set", "statement": "After any sequence of insertions and removals the AA tree contains exactly the inserted-not-removed keys, once each, find succeeds exactly for members, in-order traversal is sorted, and the tree stays balanced (height at most 2*log2(n+1)).", "quantifier": "every sequence of insert and remove operations", "why_tests_cant": "rebalancing must be right for all histories", "anchors": ["pcu/pcu_aa.c"]}
{"id": "C29", "title": "Collectives compute the fold over all ranks", "statement": "PCU_Add/Min/Max over any number of processes return on every process the combination of all contributions.", "quantifier": "every number of processes (not only powers of two) and all contributions and all message interleavings", "why_tests_cant": "process counts and schedules are unbounded", "anchors": ["pcu/pcu_coll.c", "pcu/pcu.c"]}
{"id": "C30", "title": "Scans compute prefix combinations", "statement": "PCU_Exscan returns on process r the sum of the contributions of processes 0..r-1; the scan the sum of 0..r.", "quantifier": "every number of processes and all contributions", "why_tests_cant": "process counts are unbounded; power-of-two cases hide errors", "anchors": ["pcu/pcu_coll.c:scan_up,scan_down", "pcu/pcu.c:PCU_Exscan_Ints"]}
{"id": "C31", "title": "A communication phase delivers every message exactly once and then ends", "statement": "Between PCU_Comm_Begin and the end of the PCU_Comm_Receive loop every message sent in that phase to a process is received by it in that phase exactly once, none leaks to the next phase, and the phase terminates once all messages are received.", "quantifier": "every number of processes, message pattern, number of phases and interleaving of process steps and message deliveries", "why_tests_cant": "termination detection is a race; schedules are unbounded", "anchors": ["pcu/pcu_msg.c", "pcu/pcu_coll.c:barrier", "pcu/pcu_pmpi.c"]}
{"id": "C32", "title": "Ordered mode delivers by increasing sender", "statement": "With PCU_Comm_Order on, messages of a phase are delivered sorted by sender rank whatever the arrival order, with none lost or duplicated.", "quantifier": "every set of messages and arrival order", "why_tests_cant": "arrival orders", "anchors": ["pcu/pcu_order.c", "pcu/pcu_aa.c"]}
{"id": "C33", "title": "Binary files are byte-order independent and round-trip", "statement": "Values written by pcu_write_* are stored big-endian regardless of the host and pcu_read_* restores them; strings round-trip including the terminator.", "quantifier": "every value and every host byte order", "why_tests_cant": "all 2^32/2^64 values, both endiannesses", "anchors": ["pcu/pcu_io.c", "pcu/pcu_byteorder.h"]}
{"id": "C34", "title": "The imbalance metric is at least one and one only when balanced", "statement": "EnGPar_Get_Imbalance equals max/average over parts; it is >= 1 for a positive total and equals 1 exactly when all parts have the same weight.", "quantifier": "every number of parts and weights", "why_tests_cant": "all weight vectors", "anchors": ["partition/Metrics/engpar_metrics.cpp"]}
{"id": "C35", "title": "evaluatePartition reports correct averages, maxima and minima", "statement": "evaluatePartition(g, name) collects on every part the number of connected components minus one, the number of neighbouring parts, the weight of the local and of all vertices and, per edge type, the weight of the edges and of the cut edges of the distributed graph; the table printed holds, for each of them, max, min, average (and total, imbalance) over the parts, and every line starts with the given name.", "quantifier": "every number of edge types and parts", "why_tests_cant": "array bounds depend on the number of types and on the length of the name; the numbers must be right for every graph and distribution", "anchors": ["partition/engpar.cpp:evaluatePartition"]}
{"id": "C36", "title": "The disconnected count is the number of components minus one", "statement": "countDisconnected returns the number of connected components of the part's local graph minus one.", "quantifier": "every graph", "why_tests_cant": "all graphs", "anchors": ["partition/engpar.cpp:countDisconnected,bfs"]}
{"id": "C37", "title": "The iteration queue is the list of cut edges", "statement": "createIterationQueue yields each cut edge exactly once in iteration order and nothing else, even while elements are removed during iteration.", "quantifier": "every graph", "why_tests_cant": "all graphs and removal histories", "anchors": ["partition/Diffusive/src/engpar_queue.cpp:createIterationQueue", "partition/Diffusive/src/engpar_queue.h"]}
{"id": "C38", "title": "Breadth-first search computes graph distances", "statement": "Push and pull BFS assign each edge its distance to the nearest seed, give the same result, and terminate.", "quantifier": "every graph and seed set", "why_tests_cant": "all graphs", "anchors": ["partition/Diffusive/src/engpar_queue.cpp:bfs_push,bfs_pull"]}
{"id": "C39", "title": "bfsSort sorts", "statement": "bfsSort permutes the edge list so that depth keys are ordered, neither losing nor duplicating an edge, and terminates.", "quantifier": "every array and key function", "why_tests_cant": "all arrays including equal keys", "anchors": ["partition/Diffusive/src/engpar_queue.cpp:bfsSort"]}
{"id": "C40", "title": "The distance queue holds the shared edges, outer edges of shallow components first", "statement": "On a hypergraph part with ghost vertices createDistanceQueue terminates without touching memory outside its arrays, and the queue holds each edge whose pins live on more than one part exactly once and nothing else. Call a component the edges joined by chains of shared local vertices, its core the edges of it farthest from the edges with a ghost pin: the components come in one piece, in order of the distance of their core from the border and then of their number of edges, and in each component the edges come in decreasing distance from the core. On a hypergraph part without ghosts the queue is empty, if the part has no edge or at least three; with one or two edges the call writes outside its arrays. The push and the pull search give these results alike. For traditional graphs with one-way edges the call can read outside its arrays.", "quantifier": "every hypergraph part whose ghosts are owned elsewhere, with either search", "why_tests_cant": "all graphs, numbers of components, depths and ties", "anchors": ["partition/Diffusive/src/engpar_queue.cpp:createDistanceQueue,bfs_push,bfs_pull,distance_visit,bfsSort"]}
{"id": "C41", "title": "Sides count shared boundary", "statement": "makeSides gives, for each neighbouring part, the number (weight) of cut edges shared with it, and total is the number of cut edges.", "quantifier": "every graph", "why_tests_cant": "all graphs; fractional weights", "anchors": ["partition/Diffusive/src/engpar_sides.h"]}
{"id": "C42", "title": "Targets send only downhill and never overshoot the difference", "statement": "makeTargets only gives a positive target to lighter neighbours that are not protected by a completed dimension; the amounts are at most step_factor times the weight difference times the side fraction, so the total planned outflow is bounded.", "quantifier": "every weight vector and side map", "why_tests_cant": "all real-valued inputs", "anchors": ["partition/Diffusive/src/engpar_targets.h"]}
{"id": "C43", "title": "Selection respects targets and plan discipline", "statement": "select only plans vertices of the part that lie on a queued edge, each vertex at most once, only to target parts, and stops planning weight for a part once its target is reached: the weight that the plan moves to a part exceeds its target, and the weight of the whole plan the sum of the targets, by at most one cavity (11 vertices). With minConnectivity > 1 a second pass plans the vertices left on a queued edge exactly when every vertex strongly connected to them (minConnectivity times) moves along or is planned, and sends them to the part they share most edges with.", "quantifier": "every graph, queue and targets", "why_tests_cant": "all graphs", "anchors": ["partition/Diffusive/src/engpar_selector.cpp:select,addCavity,selectDisconnected,isPartiallyConnected,getCavityPeers"]}
{"id": "C44", "title": "trim keeps receivers within their limits", "statement": "After trim, the incoming weight accepted by a part in every previously balanced dimension does not exceed the part's available capacity, whatever the arrival order, and cancel leaves a sub-plan whose weight per destination fits the granted capacity.", "quantifier": "every plan, every part count, every arrival order", "why_tests_cant": "distributed schedules and all plans", "anchors": ["partition/Diffusive/src/engpar_selector.cpp:acceptWeight,gatherCapacities,cancel,trim"]}
{"id": "C45", "title": "Balancing stops within the configured number of iterations", "statement": "balance performs at most max_iterations (and per type max_iterations_per_type) migration steps, processes criteria in priority order, and never runs forever.", "quantifier": "every step outcome sequence and configuration", "why_tests_cant": "all outcome histories", "anchors": ["partition/Diffusive/src/engpar_balancer.cpp:balance", "partition/Diffusive/src/engpar_weightBalancer.cpp"]}
{"id": "C46", "title": "Stagnation detection follows the last three values", "statement": "The slope reported is a function of exactly the last three recorded values, available only once three were recorded, and a constant sequence has slope zero.", "quantifier": "every sequence of recorded values", "why_tests_cant": "all histories", "anchors": ["partition/Diffusive/src/engpar_sd.cpp"]}
{"id": "C47", "title": "Splitting onto a larger communicator keeps the graph and its owners right", "statement": "When a graph distributed over a small communicator is split onto a larger one, the owner of every vertex becomes the large-communicator rank of the process that holds it, whatever ranks the original processes have there; the old parts are on distinct processes; a LOCAL plan is relabelled through other_ranks vertex by vertex; and after the split every vertex is on exactly the process the partitioner planned, every hyperedge on exactly the processes of its pins, every ghost's owner is the process holding it, and the original owner of each vertex is the process it came from.", "quantifier": "every distribution, placement of the small communicator in the large one, plan made by the partitioner and message schedule", "why_tests_cant": "all sizes, placements, plans and schedules", "anchors": ["partition/Multilevel/engpar_split.cpp:expandParts", "agi/agiVertex.cpp:changeOwners"]}
{"id": "C48", "title": "The CSR graph handed to ParMETIS is the vertex adjacency graph of the distributed graph", "statement": "vtxdist numbers the vertices contiguously, part after part; each row of adjncy has every vertex sharing an edge with the row's vertex exactly once, under its new number, with the sum of the weights of the shared edges; the matrix is symmetric without diagonal; the vertex weights are those given; the answer becomes a plan with the i-th vertex going to the i-th entry. (Directed traditional edges and LOCAL_PARMETIS on ranks other than 0 break this.)", "quantifier": "every distributed graph, every number of parts, every traversal order of the hash maps, every arrival order of the messages", "why_tests_cant": "all graphs, distributions and schedules", "anchors": ["partition/Multilevel/engpar_parmetis.cpp:EnGPar_ParMETIS", "partition/Multilevel/engpar_split.cpp:split"]}
{"id": "C49", "title": "The binary edge-list reader covers the file exactly once and owns every vertex", "statement": "Across the processes the slices read, put one after the other, are the file; without a partition file every id has exactly one owner among the processes; every process receives exactly the edges whose source it owns, in file order; over all processes no edge and no vertex is lost or duplicated.", "quantifier": "every file of edges, every number of processes, every table of owners in range", "why_tests_cant": "integer division boundaries for all sizes", "anchors": ["interfaces/binGraph.cpp:load_edges,vert_block_ranks,exchange_edges"]}
{"id": "C50", "title": "The distributed CSR built by the binary reader is consistent", "statement": "In the graph built from an edge list, the neighbours of every vertex have the ids and the owners the file gives them.", "quantifier": "every edge list, number of processes and table of owners", "why_tests_cant": "all inputs; the error needs rank >= 1", "anchors": ["interfaces/binGraph.cpp:create_dist_csr"]}
{"id": "C51", "title": "Migration timers index in range", "statement": "Adding timers and then updating and reading any of them accesses its own entry.", "quantifier": "every sequence of timer names", "why_tests_cant": "all histories", "anchors": ["agi/agiMigrationTimers.cpp"]}
{"id": "C52", "title": "Function logging stays balanced", "statement": "Every API call leaves the logging depth as it found it.", "quantifier": "every call path", "why_tests_cant": "all paths", "anchors": ["support/engpar_log.cpp", "agi/agiConstruct.cpp:removeEdges", "agi/agiVertex.cpp:setOriginalOwners"]}
{"id": "C53", "title": "Array and vector construction agree", "statement": "constructVerts/constructEdges/constructGhosts called with raw arrays build the same graph as with vectors and maps holding the same data.", "quantifier": "every input", "why_tests_cant": "all inputs including ghost owner lists naming unknown ids", "anchors": ["agi/agiConstruct.cpp"]}
{"id": "C54", "title": "Changing edge weights is local", "statement": "setEdgeWeights(t) replaces the weights of type t in order and changes nothing else; it is rejected when sizes disagree.", "quantifier": "every graph and weight vector", "why_tests_cant": "all inputs", "anchors": ["agi/agiEdge.cpp:setEdgeWeights"]}
{"id": "C55", "title": "A barrier waits for everybody", "statement": "No process returns from PCU_Barrier before every process has entered it.", "quantifier": "every number of processes, number of barriers and interleaving", "why_tests_cant": "all schedules", "anchors": ["pcu/pcu_coll.c:pcu_begin_barrier,pcu_barrier"]}
{"id": "C56", "title": "A weight-migration plan accumulates what is inserted", "statement": "After any sequence of insert(v,u,w) calls a WeightMigration reports has(v)/has(v,u) exactly for inserted pairs, get(v,u) is the sum of the amounts inserted for (v,u), size() is the total, the iterator visits every pair with its accumulated amount, and clear() returns the plan to the empty state including size().", "quantifier": "all sequences of insert and clear calls on a WeightMigration", "why_tests_cant": "The number of insertions, their interleaving between sources and targets and the amounts are unbounded; a unit test inserts a handful of fixed triples.", "anchors": ["agi/agiWeightMigration.cpp:WeightMigration::insert", "agi/agiWeightMigration.cpp:WeightMigration::clear", "agi/agiMigration.h:WMIterator"]}
{"id": "C57", "title": "A whole run of the diffusive balancer keeps what it achieved", "statement": "balance() terminates without undefined behaviour; the distributed graph it leaves is the same global hypergraph with new owners; every step moves vertices only from a part to a strictly lighter part (in the current dimension), and only to parts that are below the limits of the dimensions balanced earlier; a step that stops with 'within tolerance' means that no part exceeds tolerance times average; and at the end of the whole run no part is above the limit recorded for any dimension balanced earlier, even though later dimensions moved vertices. With one process nothing changes.", "quantifier": "every hypergraph, initial distribution, list of priorities and tolerances, step factor, limits on iterations, order of message arrival and order of traversal of the unordered containers", "why_tests_cant": "unbounded numbers of parts, vertices, edges, steps and interleavings of messages; the interplay of targets, selection, trimming, cancelling and migration over many steps", "anchors": ["partition/Diffusive/src/engpar_balancer.cpp:Balancer::runStep,Balancer::balance", "partition/Diffusive/src/engpar_targets.h", "partition/Diffusive/src/engpar_weights.h", "partition/Diffusive/src/engpar_queue.cpp", "partition/Diffusive/src/engpar_selector.cpp", "agi/agiMigration.cpp:migrate"]}
{"id": "C58", "title": "Weight diffusion conserves weight and reports the flow it caused", "statement": "balanceWeights-style diffusion (WeightBalancer): each step, under every schedule, is free of undefined behaviour; a vertex never plans to send more than its weight and a part is never sent more than its target (step_factor times the difference of the part weights); weight only goes to strictly lighter parts, and no vertex weight becomes negative; the total weight is conserved; the run ends after at most max_iterations rounds; everything but the vertex weights is unchanged; the flow handed back contains exactly the positive part of an antisymmetric net flow between vertices of different parts, and each part has lost exactly its net outflow. A step that reports success means every part is below tolerance times average.", "quantifier": "every distributed hypergraph with non-negative vertex weights in which each edge is stored on exactly the parts holding one of its pins, every tolerance, step factor and limit, order of message arrival and order of traversal of the unordered sets", "why_tests_cant": "conservation over an unbounded number of steps, parts and transfers, and for every interleaving of messages", "anchors": ["partition/Diffusive/src/engpar_weightBalancer.cpp", "partition/Diffusive/src/engpar_weightSelector.cpp", "agi/agiWeightMigrate.cpp:Ngraph::migrate(WeightMigration*)"]}
{"id": "C59", "title": "Edges (vertices) that share a vertex (an edge) get different colours", "statement": "EnGPar_KokkosColoring: the parallel construction of the edge adjacency yields, for every edge of the requested type, exactly the other edges that share a vertex with it, each once, without reading or writing outside an array and independently of the order in which threads insert, count and store; so the colouring of the edges gives different colours to edges that share a vertex, and the colouring of the vertices gives different colours to vertices that share an edge of the requested type.", "quantifier": "every hypergraph part (and, for vertices, traditional part with reversed edges), every edge type, every order of insertion into the concurrent set, of its slots, of the atomic additions, and every interleaving of the atomic fetch and the store of the filling threads", "why_tests_cant": "the result must not depend on the interleaving of an unbounded number of threads; a test sees one interleaving and out-of-bounds reads need not fail", "anchors": ["partition/Coloring/engpar_kokkosColoring.cpp:parallel_create_eve", "partition/Coloring/engpar_kokkosColoring.cpp:EnGPar_KokkosColoring", "agi/agiConstruct.cpp:Ngraph::create_vev_adjacency"]}
{"id": "C60", "title": "Zoltan is told the graph that is there and the plan is its answer", "statement": "EnGPar_Zoltan: the query functions never write outside the arrays Zoltan allocates from the reported sizes; the vertex query reports every vertex of the part with its weight; the hyperedge query lets Zoltan read, for every vertex, exactly the ids of the edges it is a pin of; the edge weight query reports every edge with its weight; for a traditional graph the neighbour query reports exactly the destinations of the vertex with the parts that own them; and the migration plan sends exactly the exported vertices to the processes Zoltan chose.", "quantifier": "every constructed graph or hypergraph part, every vertex, every export list with distinct local ids", "why_tests_cant": "garbage handed to a partitioner still yields some partition, so only a proof over all parts shows that what is handed over is the graph; uninitialised entries and truncated ids are invisible on small inputs", "anchors": ["partition/Multilevel/engpar_zoltan.cpp:getVertices", "partition/Multilevel/engpar_zoltan.cpp:getHyperedges", "partition/Multilevel/engpar_zoltan.cpp:getHyperedgeWeights", "partition/Multilevel/engpar_zoltan.cpp:getEdges", "partition/Multilevel/engpar_zoltan.cpp:EnGPar_Zoltan"]}
{"id": "C61", "title": "The graph of a distributed mesh is the mesh", "statement": "createAPFGraph on a consistent mesh, however it is divided: it succeeds on every part for every arrival order of the messages; the vertices of a part are the primary entities it owns, in mesh order, with weight 1; the hyperedges of each type are the entities of that dimension the part has, and the pins of each are all the primary entities touching it on any part, each once; the edges of a vertex are exactly the adjacent entities; the ghosts are exactly the pins not owned, each with its owner and the weight it has there; the reported global numbers of edges and pins are those of the whole mesh; wrong dimensions are rejected.", "quantifier": "every mesh, every division into parts with consistent copies, every list of secondary dimensions, every arrival order in the four message phases", "why_tests_cant": "a lost pin or a wrong owner appears only for particular divisions and arrival orders; tests use a handful of meshes and look at counts", "anchors": ["interfaces/apfGraph.cpp:setupPrimary", "interfaces/apfGraph.cpp:setupSecondary", "interfaces/apfGraph.cpp:connectToEdges", "interfaces/apfGraph.cpp:connectToPins", "interfaces/apfGraph.cpp:constructGhostVerts", "interfaces/apfGraph.cpp:checkDims"]}
{"id": "C62", "title": "The graph of the degrees of freedom of a mesh", "statement": "createSerendipityGraph on a consistent mesh: it succeeds; there is one hyperedge for each entity that holds degrees of freedom, weighted by their number, and different entities have different ids; pins, adjacencies and ghosts are those of the mesh; the reported global number of hyperedges is the number of these entities.", "quantifier": "every order, every mesh, every division into parts, every arrival order", "why_tests_cant": "the ids of different dimensions collide only for meshes with few entities of the higher dimension, and the global count is only wrong on several parts", "anchors": ["interfaces/dofGraph.cpp:setupHyperedges", "interfaces/dofGraph.cpp:connectToEdges", "interfaces/dofGraph.cpp:connectPins", "interfaces/dofGraph.cpp:hasDOFs", "interfaces/dofGraph.cpp:numDOFs"]}
{"id": "C63", "title": "writeVTK writes the graph it was given", "statement": "writeVTK(g,prefix,tag,t) makes every part write one readable .vtu piece that shows its part: the points are the coordinates of its vertices in order, followed for a hypergraph by one point per edge at the mean of the coordinates of all of its pins (also those owned by other parts); the lines join each edge to each of its pins on this part (or the two ends of each edge of a traditional graph), every index names a point that exists, offsets and types describe these lines, and the data arrays give every point its part, its kind and its tag value. Part 0 writes an index that lists each piece once and declares the arrays the pieces contain.", "quantifier": "every distributed graph, coordinates, tag, order of message arrival and file name prefix", "why_tests_cant": "unbounded graphs and message orders; a test that opens one picture does not see an index out of range or a wrong mean", "anchors": ["agi/agiVTK.cpp:writeVTK,writePoints,writeCells,writePointData,getNumCells,writePVTU"]}
{"id": "C64", "title": "Zoltan is told the graph it shall cut", "statement": "partitioning by vertex cut describes the graph to Zoltan faithfully: the objects are the edges of the part, each with its own id; for each vertex there is one net that contains exactly the edges the vertex is an end of, with the inverse of its degree as weight; nothing is written outside the arrays whose sizes were announced. The partition that is returned gives every exported edge the part of its last export entry and no edge two parts.", "quantifier": "every constructed graph, every export list", "why_tests_cant": "all graphs; writing one entry behind an array of Zoltan is invisible to a test", "anchors": ["zoltan/ZoltanCallbacks.cpp:num_obj,obj_list,hg_size,hg_data,hg_ew", "zoltan/ZoltanCutVertex.cpp:createPtn"]}
{"id": "C65", "title": "vertex-cut migration moves each edge to its part and links the copies of each vertex", "statement": "binGraph::migrate(map) of a graph without ghosts leaves part q with exactly the edges that the maps give to q and exactly the vertices at their ends, each with weight 1 and its outgoing neighbours; each vertex has, for every other part that holds it too, exactly one copy in its list of split edges, owned by that part; edge weights move with the edges, the weights of copies can be read and the number of global vertices is unchanged.", "quantifier": "every distribution of edges over processes, every map, every order of message arrival, both sizes of lid_t", "why_tests_cant": "unbounded graphs and message orders; a wrong element size in a memcpy may pass every small test", "anchors": ["interfaces/binGraph.cpp:binGraph::migrate,binGraph::create_dist_csr"]}
{"id": "C66", "title": "The C interface builds and reports the same graph as the C++ interface", "statement": "A graph passed as flat arrays through cengpar_constructVerts, cengpar_constructEdges and cengpar_constructGhosts is the graph that the C++ calls build from the same data (a ghost listed several times belongs to the owner listed last); cengpar_getPartition fills its two arrays with every vertex that started on the calling part exactly once and the part on which it is now, whatever the order in which the hash map is traversed; the options of a diffusive input handle are those of the calls made on it, in order.", "quantifier": "all valid graphs, all array contents that hold them, all histories of migrations, all traversal orders of the map, all sequences of option calls", "why_tests_cant": "array lengths, traversal orders of the hash map and histories are unbounded", "anchors": ["interfaces/cengpar.cpp", "interfaces/cengpar.h", "partition/engpar_input.h"]}
{"id": "C67", "title": "Receive loops see exactly the records sent, in order; Write and Read frame messages", "statement": "In a communication phase a rank's while (PCU_Comm_Receive()) loop, whose body unpacks one self-delimiting non-empty record, sees from every rank exactly the records that rank packed for it, in packing order, and nothing else, without failing, for every arrival order and with ordering on or off; messages written with PCU_Comm_Write (of any size, also empty) are obtained one by one with PCU_Comm_Read; PCU_Comm_Packed returns the number of bytes packed; PCU_Or and PCU_And are the disjunction and conjunction of the ranks' arguments.", "quantifier": "all record codings and loop bodies, all packing sequences, all numbers of ranks, all arrival orders, both ordering modes, all schedules of the reductions", "why_tests_cant": "records, arrival orders and schedules are unbounded", "anchors": ["pcu/pcu.c", "pcu/pcu_msg.c", "pcu/pcu_order.c", "pcu/pcu_buffer.c"]}
{"id": "C68", "title": "Calls to the communication library at the wrong time are refused; initialisation is counted once", "statement": "A program that keeps to the protocol (initialise, Begin, Pack, Send, Listen until false with each message unpacked, Free) is never refused, meets no undefined behaviour and every call returns what the protocol says, over any number of phases and with ordering switched on or off between phases; any other call is refused with an error. EnGPar_Finalize frees PCU exactly when EnGPar_Initialize initialised it.", "quantifier": "all sequences of calls of one rank, all sizes, all arriving messages, all interleavings of application and EnGPar initialisation", "why_tests_cant": "call histories are unbounded, and a test makes only the calls its author thinks of", "anchors": ["pcu/pcu.c", "pcu/pcu_msg.c", "pcu/pcu_order.c", "support/engpar_support.cpp"]}
{"id": "C69", "title": "Messages appear once, where they should, and errors are remembered", "statement": "EnGPar_Status_Message, with a verbosity not above the one set, and EnGPar_Warning_Message print their text once on standard output, EnGPar_Error_Message on standard error, in the order of the calls and with their prefix; a status message with a higher verbosity prints nothing; EnGPar_Hit_Error says whether an error was reported since the last EnGPar_Start_Test. After EnGPar_Debug_Open status messages and warnings (with mode e also errors) go to the debug file, after EnGPar_Debug_Close all messages go to the terminal again.", "quantifier": "all sequences of calls, formats, arguments, verbosities and ranks", "why_tests_cant": "call histories and message lengths are unbounded", "anchors": ["support/engpar_message.cpp", "support/engpar_support.cpp"]}
{"id": "C70", "title": "Every rank has its own PCU debug file and what it prints is there", "statement": "PCU_Debug_Open, called by all ranks in any interleaving, never fails and terminates; every rank then owns a file named after its rank (in a sub-directory per 2048 ranks when there are more), no two ranks share a file, no directory gets more than 2048 of them, and between PCU_Comm_Init and PCU_Comm_Free the file contains exactly what the rank printed after opening it.", "quantifier": "every number of ranks, schedule, set of directories that exist already and sequence of PCU_Comm_Init/Free, PCU_Switch_Comm, PCU_Debug_Open and PCU_Debug_Print calls", "why_tests_cant": "the directories are made by some ranks and used by others, and only beyond 2048 ranks", "anchors": ["pcu/pcu.c:PCU_Debug_Open,PCU_Debug_Print,safe_mkdir,append,PCU_Comm_Init,PCU_Comm_Free,PCU_Switch_Comm", "pcu/pcu_io.c:pcu_open_parallel"]}
{"id": "C71", "title": "Local ids, handles and int counters do not overflow", "statement": "As long as the local vertices, the edges and the pins of a part can be numbered with LOCAL_ID_TYPE, every access call (getVertex, getEdge, u, v, owner, the five iterators, pins, adjacent), setEdgeWeights, changeOwners and the second adjacencies return what they would return with unbounded integers; no signed computation overflows and no handle is truncated.", "quantifier": "every constructed graph, call, edge type, width of lid_t and of int", "why_tests_cant": "an overflow shows only on parts with 2^29 and more entities (or one hyperedge with 46341 pins), which no test builds", "anchors": ["agi/CMakeLists.txt:LOCAL_ID_TYPE", "agi/agiVertex.cpp:getVertex,owner,vev_begin,vev_end", "agi/agiEdge.cpp:getEdge,u,v,pins,setEdgeWeights,eve_begin,eve_end", "agi/agiIterate.cpp:iterate", "agi/agiConstruct.cpp:create_vev_adjacency,create_eve_adjacency"]}
{"id": "C72", "title": "Splitting and migrating never block", "statement": "createLocalSplitInput / createGlobalSplitInput followed by split (all three methods), migrate, and the construction calls perform, on every communicator, the same collective operations in the same order on all its members, whatever each process's graph contains: no process waits for ever, and split leaves PCU on the large communicator.", "quantifier": "every number of processes, division into small communicators, choice of original processes, method, graph on each process (hypergraph flag, edge types, coordinates) and order of execution", "why_tests_cant": "a mismatch of collectives shows as a hang that depends on which processes are original, on what their graphs contain and on the MPI implementation", "anchors": ["partition/engpar_input.cpp:createLocalSplitInput,createGlobalSplitInput", "partition/Multilevel/engpar_split.cpp:split,expandParts", "partition/Multilevel/engpar_parmetis.cpp:EnGPar_ParMETIS", "partition/Multilevel/engpar_zoltan.cpp:EnGPar_Zoltan", "agi/agiMigrate.cpp:migrate", "agi/agiConstruct.cpp:constructVerts,constructGhosts", "pcu/pcu_pmpi.c:pcu_pmpi_switch"]}
{"id": "C73", "title": "Weights in floating point", "statement": "The weights that EnGPar adds, compares and grants are doubles. Whole-number weights of total below 2^53 are added exactly by getWeight and by every reduction over the processes, in any order; any non-negative weights are added with a relative error of at most (1+2^-53)^k - 1 after k additions. The reported imbalance is max/average up to two roundings and at least 1. The limit of a completed dimension is never below the weight of a part. However the messages arrive, a part never grants more than its room in a completed dimension, and trim and cancel leave it at or below its limit: exactly for whole numbers, up to one rounding per operation otherwise. What cancel keeps of a plan brings to each part vertices and not yet shared edges of at most the granted weight, counting every edge once, and a vertex is dropped only if it would exceed a granted weight; when every request is granted in full, nothing is dropped. The amount to send to a neighbour is between 0 and the difference of the two weights and is the stated amount up to four roundings.", "quantifier": "every graph, weights, number of processes, bracketing and order of a reduction, requests, plans and arrival order; doubles include infinities, signed zeros and subnormals", "why_tests_cant": "rounding errors depend on all the values and on the order of the additions; a test sees one order of one set of values", "anchors": ["partition/Metrics/engpar_metrics.cpp:getWeight,EnGPar_Get_Imbalance", "partition/Diffusive/src/engpar_balancer.cpp:getMaxWeight,getAvgWeight,balance", "partition/Diffusive/src/engpar_selector.cpp:determineAvailability,acceptWeight,trim,cancel", "partition/Diffusive/src/engpar_targets.h:Targets"]}
