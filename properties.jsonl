{"id": "C01", "title": "Graph edge store is a weighted undirected edge map", "statement": "After any history of add_edges (with any merge_op), remove_edges, add_extra_selfloop, remove_extra_selfloop, remove_selfloop and clear on a Graph, the pairs and weights reported by g.e are exactly those of an abstract map from unordered vertex pairs to weights obtained by applying the same history (followed, when extra self-loops are switched on, by one pair (v,v) of weight 1 per vertex): an added absent edge gets its weight, an added present edge gets the mean/sum/max of old and new, a removed edge disappears whichever way round it is written, no stored edge is ever reported twice, and g.num_e is the number of reported pairs.", "quantifier": "every vertex count, every finite sequence of mutating calls with arbitrary edge lists, weights, endpoint orders and merge operators", "why_tests_cant": "Histories are unbounded and the merge/remove/self-loop cases interact; a test fixes one history.", "anchors": ["dhg/structure/graphs/graph.py:Graph.add_edges", "dhg/structure/graphs/graph.py:Graph.remove_edges", "dhg/structure/base.py:BaseGraph._add_edge", "dhg/structure/base.py:BaseGraph._remove_edge", "dhg/structure/base.py:BaseGraph.e", "dhg/structure/base.py:BaseGraph.num_e"]}
{"id": "C02", "title": "Graph queries never return stale data", "statement": "Whatever queries (e, A, D_v, D_v_neg_1, N_v at any hop, ...) were made before, and in whatever order they were interleaved with mutations, every query returns exactly what a freshly built Graph with the same edges would return.", "quantifier": "every interleaving of mutations and queries, every vertex count", "why_tests_cant": "Staleness only shows on particular interleavings of cached queries and mutations; there are infinitely many.", "anchors": ["dhg/structure/base.py:BaseGraph.cache", "dhg/structure/base.py:BaseGraph._clear_cache", "dhg/structure/graphs/graph.py:Graph.A", "dhg/structure/graphs/graph.py:Graph.N_v"]}
{"id": "C03", "title": "Graph adjacency, degree and handshake", "statement": "For every Graph, A is symmetric, A[i,j] is the weight of the edge {i,j} if present and 0 otherwise (self-loops, stored or extra, on the diagonal), D_v[i] is the i-th row sum of A, D_v_neg_1 inverts it with 0 for a zero degree, and the degrees sum to twice the total weight of the proper edges plus once the self-loop weights. e_src/e_dst/e_weight list exactly the stored entries of A: each edge in both directions, each self-loop once.", "quantifier": "every reachable Graph state", "why_tests_cant": "Must hold of every edge set; tests compare a few fixed matrices.", "anchors": ["dhg/structure/graphs/graph.py:Graph.A", "dhg/structure/graphs/graph.py:Graph.D_v", "dhg/structure/graphs/graph.py:Graph.D_v_neg_1", "dhg/structure/graphs/graph.py:Graph.e_both_side", "dhg/structure/graphs/graph.py:Graph.e_src", "dhg/structure/graphs/graph.py:Graph.deg_v"]}
{"id": "C04", "title": "Graph Laplacian is the edge-difference form", "statement": "For every Graph, L = D - A of the graph without self-loops: every row of L sums to 0 and for every vector x, x'Lx = sum over edges w(u,v)(x_u-x_v)^2, hence x'Lx >= 0 whenever the weights are non-negative.", "quantifier": "every reachable Graph, every vector x", "why_tests_cant": "Universally quantified over real vectors and graphs.", "anchors": ["dhg/structure/graphs/graph.py:Graph.L"]}
{"id": "C05", "title": "Normalised Laplacians of a Graph", "statement": "For every Graph with non-negative weights, L_sym and L_GCN are symmetric, L_rw annihilates constants on every non-isolated vertex, GCN smoothing D^-1/2(A+I)D^-1/2 never increases energy (|x'Lx| form bounded by x'x), and L_GCN always gives every vertex exactly one extra self-loop however often it is requested and leaves the graph itself unchanged.", "quantifier": "every reachable Graph with non-negative weights, every feature vector", "why_tests_cant": "Inequality over all real vectors.", "anchors": ["dhg/structure/graphs/graph.py:Graph.L_sym", "dhg/structure/graphs/graph.py:Graph.L_rw", "dhg/structure/graphs/graph.py:Graph.L_GCN", "dhg/structure/graphs/graph.py:Graph.smoothing_with_GCN"]}
{"id": "C06", "title": "Graph.v2v message passing without edge weights", "statement": "g.v2v(X,'sum') at vertex i is the edge-weighted sum of the neighbours' rows; g.v2v(X,'mean') is that sum divided by the weighted degree: with positive weights it lies between the least and greatest neighbour value, it preserves constant features on non-isolated vertices and yields 0 on isolated ones.", "quantifier": "every reachable Graph, every feature matrix", "why_tests_cant": "Universally quantified over graphs and features.", "anchors": ["dhg/structure/graphs/graph.py:Graph.v2v"]}
{"id": "C07", "title": "Graph.v2v with custom edge weights", "statement": "g.v2v(X, aggr, e_weight=w): 'sum' uses w[k] for the k-th entry of (e_src,e_dst); 'softmax_then_sum' weighs each neighbour by exp of its own weight divided by the sum of these over the neighbours of the vertex. (The 'mean' case is C75.)", "quantifier": "every reachable Graph, every feature matrix, every custom weight vector", "why_tests_cant": "Universally quantified over real weights.", "anchors": ["dhg/structure/graphs/graph.py:Graph.v2v"]}
{"id": "C08", "title": "N_v(v, hop) is walk reachability", "statement": "g.N_v(v, hop) returns exactly the vertices that can be reached from v by a walk of exactly hop edges (duplicates-free), whatever hops were asked for before.", "quantifier": "every reachable Graph with positive weights, every vertex, every hop >= 1, every history of earlier queries", "why_tests_cant": "Unbounded hop counts and query histories.", "anchors": ["dhg/structure/graphs/graph.py:Graph.N_v", "dhg/structure/graphs/graph.py:Graph.nbr_v"]}
{"id": "C09", "title": "Graph/DiGraph/BiGraph save-load-clone round trip", "statement": "clone() and load(save()) of a Graph, DiGraph or BiGraph give a structure that answers every query like the original and that evolves identically under every later history; load refuses a file of another class.", "quantifier": "every reachable structure, every later history", "why_tests_cant": "Equality must hold for all states and all continuations.", "anchors": ["dhg/structure/graphs/graph.py:Graph.clone", "dhg/structure/graphs/graph.py:Graph.save", "dhg/structure/graphs/graph.py:Graph.load", "dhg/structure/graphs/graph.py:Graph.from_state_dict", "dhg/structure/graphs/directed_graph.py:DiGraph.clone", "dhg/structure/graphs/bipartite_graph.py:BiGraph.clone", "dhg/structure/base.py:load_structure"]}
{"id": "C10", "title": "Clones and copies do not share state", "statement": "Objects obtained by clone(), drop_edges(), drop_hyperedges(), subgraph() or from_state_dict() are independent of the structure they came from: in every interleaving of mutating calls on any number of structures created that way, each structure reports what its own calls alone would produce. (The dictionary returned by state_dict() itself is not independent: see C83.)", "quantifier": "every interleaving of operations over any number of aliased or cloned objects", "why_tests_cant": "Aliasing bugs appear only under specific interleavings on several objects.", "anchors": ["dhg/structure/graphs/graph.py:Graph.clone", "dhg/structure/graphs/graph.py:Graph.from_state_dict", "dhg/structure/hypergraphs/hypergraph.py:Hypergraph.clone", "dhg/structure/hypergraphs/hypergraph.py:Hypergraph.from_state_dict"]}
{"id": "C11", "title": "drop_edges returns a sub-structure for every random outcome", "statement": "For every outcome of the random generator, drop_edges/drop_hyperedges returns a new structure on the same vertices whose edges are a sub-collection with the original weights, the edges kept being exactly those whose draw exceeds drop_rate, leaves the original untouched, and never adds or merges an edge; drop_rate=0 with draws in (0,1) keeps everything, drop_rate=1 keeps nothing.", "quantifier": "every reachable structure, every random stream, every rate", "why_tests_cant": "Quantifies over all random streams.", "anchors": ["dhg/structure/graphs/graph.py:Graph.drop_edges", "dhg/structure/graphs/directed_graph.py:DiGraph.drop_edges", "dhg/structure/graphs/bipartite_graph.py:BiGraph.drop_edges", "dhg/structure/hypergraphs/hypergraph.py:Hypergraph.drop_hyperedges"]}
{"id": "C12", "title": "Rejected calls change nothing; vertices at or above num_v are rejected", "statement": "add_edges/remove_edges reject any edge mentioning a vertex >= num_v (>= num_u on the first side of a BiGraph) with AssertionError and, unless nothing is to be added, any unknown merge_op with ValueError; every other call is accepted; a rejected call leaves the graph exactly as it was; the constructors reject num_v <= 0 and such edges. (Negative vertices are not rejected: see C79.)", "quantifier": "every reachable graph, every argument list", "why_tests_cant": "All inputs, including the bad ones, must be covered.", "anchors": ["dhg/structure/base.py:BaseGraph._format_edges", "dhg/structure/graphs/graph.py:Graph.add_edges", "dhg/structure/base.py:BaseGraph._add_edge"]}
{"id": "C13", "title": "Merging duplicate edges does not depend on insertion order", "statement": "Adding a multiset of edges with merge_op 'sum' (or 'max') produces the same weighted edge set for every order of the list and every way of splitting it into several add_edges calls; with 'sum' the stored weight is the old weight plus the sum of all weights given. ('mean' does not have this property: see C82.)", "quantifier": "every permutation and partition of every edge list", "why_tests_cant": "Factorially many orders.", "anchors": ["dhg/structure/base.py:BaseGraph._add_edge", "dhg/structure/graphs/graph.py:Graph.add_edges"]}
{"id": "C14", "title": "DiGraph edge store is a weighted directed edge map", "statement": "After any history of add_edges, remove_edges, reverse_direction, self-loop operations and clear, the saved state (state_dict, hence a saved and reloaded graph) reports exactly the abstract map from ordered pairs to weights obtained from the same history; so does g.e itself when reverse_direction was only called while nothing was cached (otherwise see C77); (u,v) and (v,u) are never confused.", "quantifier": "every history of mutating calls", "why_tests_cant": "Unbounded histories.", "anchors": ["dhg/structure/graphs/directed_graph.py:DiGraph.add_edges", "dhg/structure/graphs/directed_graph.py:DiGraph.remove_edges", "dhg/structure/graphs/directed_graph.py:DiGraph.reverse_direction", "dhg/structure/base.py:BaseGraph._add_edge"]}
{"id": "C15", "title": "DiGraph queries never return stale data", "statement": "Every query on a DiGraph (e, A, A_T, degrees, neighbours, v2v) returns what a freshly built DiGraph with the same edges would return, whatever queries and mutations, accepted or rejected, came before, provided reverse_direction is only called while nothing is cached (the other case is C77).", "quantifier": "every interleaving of queries and mutations", "why_tests_cant": "Staleness depends on the interleaving.", "anchors": ["dhg/structure/graphs/directed_graph.py:DiGraph.reverse_direction", "dhg/structure/graphs/directed_graph.py:DiGraph.A", "dhg/structure/base.py:BaseGraph.e"]}
{"id": "C16", "title": "DiGraph matrices and degrees", "statement": "A[u,v] is the weight of edge u->v or 0, A_T is its transpose, D_v_out/D_v_in are row/column sums of A, and the in-degrees and out-degrees have the same total, the total edge weight.", "quantifier": "every reachable DiGraph", "why_tests_cant": "All edge sets.", "anchors": ["dhg/structure/graphs/directed_graph.py:DiGraph.A", "dhg/structure/graphs/directed_graph.py:DiGraph.A_T", "dhg/structure/graphs/directed_graph.py:DiGraph.D_v_in", "dhg/structure/graphs/directed_graph.py:DiGraph.D_v_out", "dhg/structure/graphs/directed_graph.py:DiGraph.deg_v_in", "dhg/structure/graphs/directed_graph.py:DiGraph.deg_v_out"]}
{"id": "C17", "title": "reverse_direction is an involution that swaps in and out", "statement": "reverse_direction replaces every edge u->v by v->u with the same weight, swaps predecessors/successors and in/out degrees, and applying it twice restores the graph.", "quantifier": "every reachable DiGraph", "why_tests_cant": "All edge sets; interacts with the cache.", "anchors": ["dhg/structure/graphs/directed_graph.py:DiGraph.reverse_direction"]}
{"id": "C18", "title": "Predecessor/successor duality", "statement": "u is listed in nbr_v_in(v) iff v is listed in nbr_v_out(u) iff the edge u->v is present, each vertex once.", "quantifier": "every reachable DiGraph, all vertex pairs", "why_tests_cant": "All graphs and vertices.", "anchors": ["dhg/structure/graphs/directed_graph.py:DiGraph.N_v_in", "dhg/structure/graphs/directed_graph.py:DiGraph.N_v_out", "dhg/structure/graphs/directed_graph.py:DiGraph.nbr_v_in", "dhg/structure/graphs/directed_graph.py:DiGraph.nbr_v_out"]}
{"id": "C19", "title": "DiGraph.v2v in both directions", "statement": "v2v(X,'sum'/'mean','src2dst') at v aggregates exactly the predecessors of v, 'dst2src' exactly the successors, each weighted by the edge weight; 'mean' divides by the matching weighted degree; 'softmax_then_sum' uses the softmax of the stored (or custom) weights over exactly those neighbours; custom weights replace the stored ones for 'sum'; reversing the graph exchanges the two directions. (The custom-weight 'mean' is C78.)", "quantifier": "every reachable DiGraph, every feature matrix", "why_tests_cant": "Universal over graphs and features.", "anchors": ["dhg/structure/graphs/directed_graph.py:DiGraph.v2v"]}
{"id": "C20", "title": "DiGraph.from_feature_kNN", "statement": "from_feature_kNN(X,k) on pairwise different points yields a graph in which every vertex has exactly k outgoing edges (incoming with center_as_src=False), none of them to itself unless include_center (then exactly one), to vertices none of which is farther than any vertex left out, with weight 1 or exp(-distance); provided the k-d tree answers nearest-neighbour queries correctly and at least two points are requested.", "quantifier": "every distance matrix with zero diagonal, every k < N", "why_tests_cant": "All inputs.", "anchors": ["dhg/structure/graphs/directed_graph.py:DiGraph.from_feature_kNN"]}
{"id": "C21", "title": "BiGraph edge store is a weighted map on U x V", "statement": "After any history of add_edges/remove_edges/clear the BiGraph reports exactly the abstract map from (u,v) pairs to weights; an edge (i,i) is an ordinary edge.", "quantifier": "every history", "why_tests_cant": "Unbounded histories.", "anchors": ["dhg/structure/graphs/bipartite_graph.py:BiGraph.add_edges", "dhg/structure/graphs/bipartite_graph.py:BiGraph._add_edge", "dhg/structure/graphs/bipartite_graph.py:BiGraph.remove_edges"]}
{"id": "C22", "title": "BiGraph queries never return stale data", "statement": "Every BiGraph query returns what a freshly built BiGraph with the same edges would return.", "quantifier": "every interleaving of queries and mutations", "why_tests_cant": "Staleness depends on the interleaving.", "anchors": ["dhg/structure/graphs/bipartite_graph.py:BiGraph.A", "dhg/structure/graphs/bipartite_graph.py:BiGraph.B", "dhg/structure/graphs/bipartite_graph.py:BiGraph.add_edges"]}
{"id": "C23", "title": "BiGraph matrices", "statement": "B[u,v] is the edge weight or 0, B_T its transpose, A the symmetric block matrix [[0,B],[B_T,0]], D_u/D_v the row/column sums of B with equal totals, and nbr_v(u), nbr_u(v) are dual.", "quantifier": "every reachable BiGraph", "why_tests_cant": "All edge sets.", "anchors": ["dhg/structure/graphs/bipartite_graph.py:BiGraph.A", "dhg/structure/graphs/bipartite_graph.py:BiGraph.B", "dhg/structure/graphs/bipartite_graph.py:BiGraph.B_T", "dhg/structure/graphs/bipartite_graph.py:BiGraph.D_u", "dhg/structure/graphs/bipartite_graph.py:BiGraph.D_v", "dhg/structure/graphs/bipartite_graph.py:BiGraph.N_v", "dhg/structure/graphs/bipartite_graph.py:BiGraph.N_u"]}
{"id": "C24", "title": "switch_uv", "statement": "switch_uv returns a graph with the two vertex sets exchanged and every edge reversed, leaves the original unchanged, and switching twice gives back an equal graph.", "quantifier": "every reachable BiGraph", "why_tests_cant": "All edge sets.", "anchors": ["dhg/structure/graphs/bipartite_graph.py:BiGraph.switch_uv"]}
{"id": "C25", "title": "BiGraph u2v and v2u message passing", "statement": "u2v aggregates for each v exactly its U-neighbours and v2u for each u exactly its V-neighbours (sum, mean, softmax, and sum/softmax with custom weights given in e_u/e_v order); 'mean' with positive weights lies between the neighbours' values, preserves constants on non-isolated vertices and yields 0 on isolated ones; u2v (sum, mean) on a graph equals v2u on the switched graph. (Custom weights with 'mean' is C80.)", "quantifier": "every reachable BiGraph, every feature matrix", "why_tests_cant": "Universal over graphs and features.", "anchors": ["dhg/structure/graphs/bipartite_graph.py:BiGraph.u2v", "dhg/structure/graphs/bipartite_graph.py:BiGraph.v2u"]}
{"id": "C26", "title": "BiGraph GCN smoothing", "statement": "L_GCN of a BiGraph is D^-1/2 (A+I) D^-1/2 for the symmetric block adjacency A=[[0,B],[B_T,0]]: it is symmetric, smoothing_with_GCN multiplies by it, each vertex mixes only its own feature and those of the opposite side, and for non-negative weights |x'Lx| <= x'x for every vector x.", "quantifier": "every reachable BiGraph with non-negative weights, every vector", "why_tests_cant": "Inequality over all vectors.", "anchors": ["dhg/structure/graphs/bipartite_graph.py:BiGraph.L_GCN", "dhg/structure/graphs/bipartite_graph.py:BiGraph.smoothing_with_GCN"]}
{"id": "C27", "title": "Hypergraph store is a map from groups and vertex sets to weights", "statement": "After any history of add_hyperedges, remove_hyperedges, remove_group and clear, hg.e and hg.e_of_group report exactly the abstract map group -> (vertex multiset -> weight) obtained from the history: a hyperedge written in any vertex order is the same hyperedge, duplicates are merged with mean/sum/max, num_e and num_e_of_group count them.", "quantifier": "every history with any number of groups", "why_tests_cant": "Unbounded histories.", "anchors": ["dhg/structure/hypergraphs/hypergraph.py:Hypergraph.add_hyperedges", "dhg/structure/hypergraphs/hypergraph.py:Hypergraph.remove_hyperedges", "dhg/structure/base.py:BaseHypergraph._add_hyperedge", "dhg/structure/base.py:BaseHypergraph._hyperedge_code"]}
{"id": "C28", "title": "Hypergraph queries never return stale data", "statement": "Whatever sequence of documented calls and queries came before, a Hypergraph query answers what the current hyperedges, weights and vertex weights determine, as if nothing had ever been cached, and a query never changes a later answer. (Calls with an undocumented merge operator are C84.)", "quantifier": "every interleaving of queries and mutations", "why_tests_cant": "Staleness depends on the interleaving and on failing calls.", "anchors": ["dhg/structure/base.py:BaseHypergraph._clear_cache", "dhg/structure/hypergraphs/hypergraph.py:Hypergraph.add_hyperedges", "dhg/structure/hypergraphs/hypergraph.py:Hypergraph.H_of_group", "dhg/structure/hypergraphs/hypergraph.py:Hypergraph.D_v"]}
{"id": "C29", "title": "Incidence and degree matrices of a Hypergraph", "statement": "H[v,e] is 1 exactly when v belongs to e (duplicate-free hyperedges), H_T its transpose, D_e(e)=|e|, D_v(v)=sum of the weights of the hyperedges containing v, and sum_v D_v = sum_e w_e |e|; v2e_src/v2e_dst/e2v_src/e2v_dst list exactly the incidences.", "quantifier": "every reachable Hypergraph", "why_tests_cant": "All hypergraphs.", "anchors": ["dhg/structure/hypergraphs/hypergraph.py:Hypergraph.H", "dhg/structure/hypergraphs/hypergraph.py:Hypergraph.D_v", "dhg/structure/hypergraphs/hypergraph.py:Hypergraph.D_e", "dhg/structure/hypergraphs/hypergraph.py:Hypergraph.W_e", "dhg/structure/hypergraphs/hypergraph.py:Hypergraph.v2e_src", "dhg/structure/hypergraphs/hypergraph.py:Hypergraph.e2v_dst"]}
{"id": "C30", "title": "Hypergraph neighbour duality across groups", "statement": "v is in nbr_v(e) iff e is in nbr_e(v), where e is the global hyperedge index into hg.e; with several groups the global indices returned by nbr_e and accepted by nbr_v address the same hyperedge as position e in hg.e[0]; per-group variants use indices into e_of_group.", "quantifier": "every reachable Hypergraph with any number of groups, all v and e", "why_tests_cant": "Index-offset errors need particular group layouts.", "anchors": ["dhg/structure/hypergraphs/hypergraph.py:Hypergraph.N_e", "dhg/structure/hypergraphs/hypergraph.py:Hypergraph.N_v", "dhg/structure/hypergraphs/hypergraph.py:Hypergraph.nbr_e", "dhg/structure/hypergraphs/hypergraph.py:Hypergraph.nbr_v"]}
{"id": "C31", "title": "Hyperedge groups are isolated", "statement": "Operations on one group never change what any other group reports, and the global H/W_e/e are the concatenation of the groups in creation order.", "quantifier": "every history", "why_tests_cant": "Unbounded histories.", "anchors": ["dhg/structure/hypergraphs/hypergraph.py:Hypergraph.add_hyperedges", "dhg/structure/hypergraphs/hypergraph.py:Hypergraph.remove_hyperedges", "dhg/structure/hypergraphs/hypergraph.py:Hypergraph.remove_group", "dhg/structure/hypergraphs/hypergraph.py:Hypergraph.H"]}
{"id": "C32", "title": "Hypergraph.drop_hyperedges_of_group touches one group", "statement": "drop_hyperedges_of_group(g) returns a new hypergraph in which group g keeps exactly the hyperedges whose draw exceeds drop_rate, with their weights and in their order, and every per-group query about another group answers as on the original; an unknown group drops nothing and an unknown ord raises ValueError. (The vertex weights are not kept: C86.)", "quantifier": "every hypergraph, group, random stream", "why_tests_cant": "All random outcomes.", "anchors": ["dhg/structure/hypergraphs/hypergraph.py:Hypergraph.drop_hyperedges_of_group"]}
{"id": "C33", "title": "Hypergraph.subgraph is vertex restriction", "statement": "subgraph(v_list) renumbers the selected vertices in increasing order, keeps their vertex weights, and for each group contains exactly the hyperedges obtained by cutting an original one down to the selection (if at least one, or two, different vertices are left), each with its weight when no other hyperedge is cut down to the same set; an empty or out-of-range selection is rejected. (Collisions are C88.)", "quantifier": "every hypergraph and vertex list", "why_tests_cant": "All vertex subsets.", "anchors": ["dhg/structure/base.py:BaseHypergraph.subgraph", "dhg/structure/base.py:BaseHypergraph._subgraph_filter_hyperedge"]}
{"id": "C34", "title": "Hypergraph Laplacians", "statement": "L_HGNN is symmetric and never increases energy (x'L_HGNN x <= x'x) for non-negative hyperedge weights, L_sym = I - L_HGNN is positive semidefinite, L_rw annihilates constants on non-isolated vertices of positive degree.", "quantifier": "every reachable Hypergraph with non-negative weights, every vector", "why_tests_cant": "Inequality over all vectors.", "anchors": ["dhg/structure/hypergraphs/hypergraph.py:Hypergraph.L_HGNN", "dhg/structure/hypergraphs/hypergraph.py:Hypergraph.L_sym", "dhg/structure/hypergraphs/hypergraph.py:Hypergraph.L_rw"]}
{"id": "C35", "title": "Hypergraph message passing", "statement": "v2e 'mean' gives each hyperedge the average of its vertices' features scaled by its weight; e2v and v2v 'mean' give D_v^-1 H (W_e D_e^-1 H_T X), which equals X - L_rw X and preserves constants; 'sum' gives plain sums; per-stage overrides affect only their stage.", "quantifier": "every reachable Hypergraph, every feature matrix", "why_tests_cant": "Universal over hypergraphs and features.", "anchors": ["dhg/structure/hypergraphs/hypergraph.py:Hypergraph.v2e", "dhg/structure/hypergraphs/hypergraph.py:Hypergraph.e2v", "dhg/structure/hypergraphs/hypergraph.py:Hypergraph.v2v", "dhg/structure/hypergraphs/hypergraph.py:Hypergraph.L_rw"]}
{"id": "C36", "title": "Hypergraph aggregation with custom weights", "statement": "With custom message weights Hypergraph v2e/e2v check the number of weights, aggr='sum' is the weighted sum over the incidences and aggr='softmax_then_sum' uses softmax coefficients per receiver; aggr='mean', documented as the weighted average, multiplies the weighted sum by the total weight instead of dividing by it (a defect; Graph is C75, DiGraph C78, BiGraph C80).", "quantifier": "every structure, feature matrix and weight vector", "why_tests_cant": "Universal over weights.", "anchors": ["dhg/structure/hypergraphs/hypergraph.py:Hypergraph.v2e_aggregation", "dhg/structure/hypergraphs/hypergraph.py:Hypergraph.e2v_aggregation"]}
{"id": "C37", "title": "Hypergraph save-load-clone round trip", "statement": "A clone() of a Hypergraph answers every later history of documented calls like the original as far as it does not ask for vertex weights; load(save()) and load_structure(save()) do too, and give the hypergraph built freshly from the saved groups. Graph, DiGraph and BiGraph refuse a Hypergraph file and the other way round. (Vertex weights are lost: C86; cached W_v of a clone: C89.)", "quantifier": "every reachable Hypergraph", "why_tests_cant": "All states and continuations.", "anchors": ["dhg/structure/hypergraphs/hypergraph.py:Hypergraph.clone", "dhg/structure/hypergraphs/hypergraph.py:Hypergraph.state_dict", "dhg/structure/hypergraphs/hypergraph.py:Hypergraph.from_state_dict", "dhg/structure/hypergraphs/hypergraph.py:Hypergraph.v_weight"]}
{"id": "C38", "title": "Hypergraph construction from graph and kNN", "statement": "from_graph gives one hyperedge per reported edge, in the same order and with the same weight (when the graph does not report a self-loop twice). from_feature_kNN gives hyperedges of weight 1, each a k-element nearest set of some vertex; every vertex has one, and it contains the vertex itself when k >= 1 and no other vertex is as near. k > n and mismatched sizes are rejected. (Merging of equal neighbourhoods is C90.)", "quantifier": "every graph, every feature matrix", "why_tests_cant": "All inputs.", "anchors": ["dhg/structure/hypergraphs/hypergraph.py:Hypergraph.from_graph", "dhg/structure/hypergraphs/hypergraph.py:Hypergraph._e_list_from_feature_kNN", "dhg/structure/hypergraphs/hypergraph.py:Hypergraph.from_feature_kNN"]}
{"id": "C39", "title": "from_graph_kHop hyperedges are k-hop neighbourhoods", "statement": "from_graph_kHop(g,k) yields for each vertex the set of vertices reachable by a walk of 1..k edges together with itself, and with only_kHop=True the vertices reachable by a walk of exactly k edges together with itself; there are no other hyperedges, all weights are 1, and k < 1 is rejected.", "quantifier": "every reachable graph, every k", "why_tests_cant": "Unbounded k.", "anchors": ["dhg/structure/hypergraphs/hypergraph.py:Hypergraph._e_list_from_graph_kHop", "dhg/structure/hypergraphs/hypergraph.py:Hypergraph.from_graph_kHop"]}
{"id": "C40", "title": "Bipartite graph / hypergraph duality", "statement": "BiGraph.from_hypergraph joins vertex v and node i exactly when v is in hyperedge i, with the hyperedge's weight (weighted) or 1, and vertex degrees and hyperedge sizes become the node degrees; Hypergraph.from_bigraph's hyperedges are exactly the non-empty neighbourhoods of the other side; converting a hypergraph to a bipartite graph and back returns the same hyperedges apart from empty ones. A hypergraph without hyperedges is rejected when vertices become U.", "quantifier": "every hypergraph, every bipartite graph", "why_tests_cant": "All structures.", "anchors": ["dhg/structure/hypergraphs/hypergraph.py:Hypergraph.from_bigraph", "dhg/structure/graphs/bipartite_graph.py:BiGraph.from_hypergraph"]}
{"id": "C41", "title": "Star and clique expansions", "statement": "from_hypergraph_star connects vertex v with node num_v+i exactly when v is in hyperedge i, always with weight 1, and the returned mask marks the real vertices; from_hypergraph_clique connects two distinct vertices exactly when they share a hyperedge, with weight the number of shared hyperedges when weighted and 1 otherwise. (The factor miu is C92.)", "quantifier": "every hypergraph", "why_tests_cant": "All hypergraphs.", "anchors": ["dhg/structure/graphs/graph.py:Graph.from_hypergraph_star", "dhg/structure/graphs/graph.py:Graph.from_hypergraph_clique"]}
{"id": "C42", "title": "HyperGCN expansion", "statement": "from_hypergraph_hypergcn replaces each hyperedge e by the edge joining a vertex with the largest and one with the smallest projected feature (weight 1/|e|), or with mediators by edges of weight 1/(2|e|-3) joining these two with every other member; every generated edge lies inside a hyperedge, adjacency entries are the sums of the matching generated weights, and hyperedges with fewer than two vertices or a feature matrix of the wrong size are rejected.", "quantifier": "every hypergraph, every projection", "why_tests_cant": "All inputs.", "anchors": ["dhg/structure/graphs/graph.py:Graph.from_hypergraph_hypergcn"]}
{"id": "C43", "title": "Edge-list / adjacency-list conversions", "statement": "edge_list_to_adj_dict maps every source to the list of its destinations in order, sources in order of first occurrence; edge_list_to_adj_list lists the same lines; adj_list_to_edge_list of that is the edge list grouped by source, a permutation of the input. Conversely an adjacency list with one line of at least two entries per source is unchanged by going to the edge list and back, and the edges of any adjacency list are exactly the (head, entry) pairs of its lines.", "quantifier": "every edge list, every adjacency list", "why_tests_cant": "All lists.", "anchors": ["dhg/utils/structure.py:edge_list_to_adj_list", "dhg/utils/structure.py:adj_list_to_edge_list", "dhg/utils/structure.py:edge_list_to_adj_dict"]}
{"id": "C44", "title": "remap_* relabels bijectively onto 0..n-1", "statement": "remap_edge_list(s) and remap_adj_list(s) replace the markers by a bijection from the occurring markers (as strings) onto 0..n-1 that preserves string order, keep the shape of every edge or line, and use the same map for all lists given; with bipartite_graph=True the first entries and the other entries get two separate such maps and edges that are not pairs are rejected. For adjacency lists this holds when each single-entry line's marker also occurs in a longer line. (See C94, C95.)", "quantifier": "every list of edges or lines, every set of markers", "why_tests_cant": "All inputs.", "anchors": ["dhg/utils/structure.py:remap_edge_list", "dhg/utils/structure.py:remap_edge_lists", "dhg/utils/structure.py:remap_adj_list", "dhg/utils/structure.py:remap_adj_lists"]}
{"id": "C45", "title": "Vertex splits are disjoint with the requested sizes", "statement": "split_by_num/split_by_ratio on labels 0..k-1 or 1..k return boolean masks that are pairwise disjoint for every shuffle; every class gives min(requested, available) training, then validation, then test vertices (for exact ratios the floor of the share), and when no test size is given every vertex is in one of the masks; without a validation size only two masks are returned. No labels, a single label, and ratios adding up to more than 1 are rejected. (Labels with gaps: C96.)", "quantifier": "every label vector, every shuffle, every size", "why_tests_cant": "All shuffles and label vectors.", "anchors": ["dhg/utils/dataset_split.py:split_by_num", "dhg/utils/dataset_split.py:split_by_ratio"]}
{"id": "C46", "title": "User-item splits partition the interactions", "statement": "split_by_num_for_UI_bigraph and split_by_ratio_for_UI_bigraph split every user's item set into disjoint train and test parts whose union is the user's item set, for every shuffle; the training part has min(train_num, n) resp. min(int(n*ratio), n) items, every user has at most one line per list, users without items have none, and split_by_num never makes an empty test line.", "quantifier": "every reachable bipartite graph, every shuffle", "why_tests_cant": "All shuffles.", "anchors": ["dhg/utils/dataset_split.py:split_by_num_for_UI_bigraph", "dhg/utils/dataset_split.py:split_by_ratio_for_UI_bigraph"]}
{"id": "C47", "title": "sparse_dropout", "statement": "sparse_dropout keeps the sparsity pattern, each value is either unchanged or replaced by the fill value according to its own draw, p=0 returns the input and p outside [0,1] is rejected.", "quantifier": "every sparse matrix, p, random mask", "why_tests_cant": "All random masks.", "anchors": ["dhg/utils/sparse.py:sparse_dropout"]}
{"id": "C48", "title": "Binomial coefficient helper", "statement": "For 0 <= m <= n, C(n,m) is the number of m-element subsets of an n-element set. (Other arguments: C97.) Any number closer than 1/2 to an integer is rounded to it, so smaller errors in the logarithms do not change the coefficient.", "quantifier": "all n, m with 0 <= m <= n", "why_tests_cant": "All integers.", "anchors": ["dhg/utils/math.py:C"]}
{"id": "C49", "title": "G(n,m) generators", "statement": "graph_Gnm, digraph_Gnm and bigraph_Gnm, whenever they return, return a structure with exactly the requested number of distinct edges of weight 1, without self-loops and in range, for every random stream. They return exactly for the streams that draw enough different pairs, so for every accepted edge count any stream that eventually draws every pair makes them return. (The complete graph is refused: C98.) Fewer than two vertices (on either side of a bipartite graph) and too many edges raise AssertionError.", "quantifier": "every n, m, random stream, set order", "why_tests_cant": "All random streams; termination.", "anchors": ["dhg/random/graphs/graph.py:graph_Gnm", "dhg/random/graphs/directed_graph.py:digraph_Gnm", "dhg/random/graphs/bipartite_graph.py:bigraph_Gnm"]}
{"id": "C50", "title": "G(n,p) generators", "statement": "graph_Gnp/digraph_Gnp/bigraph_Gnp include each possible edge exactly when its own draw is below prob, without duplicates and self-loops; prob=0 yields no edges and prob=1 all possible edges; fewer than two vertices or a prob outside [0,1] is refused.", "quantifier": "every n, p, random stream", "why_tests_cant": "All random streams.", "anchors": ["dhg/random/graphs/graph.py:graph_Gnp", "dhg/random/graphs/directed_graph.py:digraph_Gnp", "dhg/random/graphs/bipartite_graph.py:bigraph_Gnp"]}
{"id": "C51", "title": "Fast G(n,p) generators", "statement": "For 0 < prob < 1, graph_Gnp_fast and digraph_Gnp_fast return for every random stream in [0,1), after at most n(n-1)/2+1 draws per pass, distinct, in-range, loop-free edges: exactly the pairs whose positions in the list of pairs are reached by skipping floor(log(1-r)/log(1-prob)) pairs per draw. Every edge set is reachable by some stream. Fewer than two vertices or a prob outside [0,1] raises AssertionError.", "quantifier": "every n, 0<p<1, random stream, edge set", "why_tests_cant": "Termination and reachability over all streams.", "anchors": ["dhg/random/graphs/graph.py:graph_Gnp_fast", "dhg/random/graphs/directed_graph.py:digraph_Gnp_fast"]}
{"id": "C52", "title": "Random hypergraph generators", "statement": "uniform_hypergraph_Gnp takes each k-subset exactly when its own draw is below prob. uniform_hypergraph_Gnm and hypergraph_Gnm, whenever they return, return exactly num_e distinct hyperedges (of size k, resp. of drawn sizes), and they return exactly for the streams that show enough different subsets. The weights of the sizes are as documented for the four methods. Invalid arguments are refused. (Infeasible requests: C100.)", "quantifier": "every n, k, num_e, random stream, weight list", "why_tests_cant": "All random streams; termination.", "anchors": ["dhg/random/hypergraphs/hypergraph.py:uniform_hypergraph_Gnp", "dhg/random/hypergraphs/hypergraph.py:uniform_hypergraph_Gnm", "dhg/random/hypergraphs/hypergraph.py:hypergraph_Gnm"]}
{"id": "C53", "title": "precision@k and recall@k", "statement": "For binary labels of which at least one in the batch is relevant, and k at least 1, precision and recall of every sample lie in [0,1], precision*k = recall*(number of relevant) = hits in the top k, recall is non-decreasing in k and equals 1 at full depth when something is relevant; without ret_batch the mean over samples is returned; the recommender versions agree; both depend on the scores only through their order. (Other labels: C101; other k: C102.)", "quantifier": "every label matrix, score matrix, k, ratio, order of ties", "why_tests_cant": "All rankings.", "anchors": ["dhg/metrics/retrieval.py:precision", "dhg/metrics/retrieval.py:recall", "dhg/metrics/recommender.py:precision", "dhg/metrics/recommender.py:recall"]}
{"id": "C54", "title": "ndcg", "statement": "For non-negative relevances ndcg lies in [0,1] for every ranking and k: it is the discounted gain of the ranking over the largest gain that any order of the items reaches, so it is 1 when the ranking sorts the relevances in descending order.", "quantifier": "every relevance vector, ranking, k", "why_tests_cant": "All rankings (rearrangement inequality).", "anchors": ["dhg/metrics/retrieval.py:ndcg", "dhg/metrics/retrieval.py:_dcg", "dhg/metrics/recommender.py:ndcg"]}
{"id": "C55", "title": "average precision", "statement": "If something is relevant, ap 'legacy' is the mean, over the relevant items, of the precision at their rank; 'pascal_voc' is the mean of the best precision at that rank or later. Both lie in (0,1], equal 1 exactly when all relevant items are ranked first, 'legacy' never exceeds 'pascal_voc', and map is the mean of ap over samples. (k is ignored: C103; nothing relevant: C105.)", "quantifier": "every label vector, ranking", "why_tests_cant": "All rankings.", "anchors": ["dhg/metrics/retrieval.py:ap", "dhg/metrics/retrieval.py:map"]}
{"id": "C56", "title": "reciprocal rank", "statement": "If a relevant item is in the top k, rr is the mean of 1/rank over the relevant items in the top k; it lies in (0,1] and is the reciprocal rank when exactly one is in the top k. mrr is the mean over samples. (Several relevant items: C104; none: C105.)", "quantifier": "every label vector, ranking, k", "why_tests_cant": "All rankings.", "anchors": ["dhg/metrics/retrieval.py:rr", "dhg/metrics/retrieval.py:mrr"]}
{"id": "C57", "title": "precision-recall curve", "statement": "If something is relevant, pr_curve returns n precision/recall pairs whose recall coordinates are 0, 1/(n-1), ..., 1, and whose precisions are within (0,1], are reached by the ranking, are non-increasing and not below any precision reached at this recall or beyond for 'pascal_voc', and end with the precision at the last relevant item. For a batch pr_curve gives the curve of every sample, or the mean of the curves point by point. (They can be too large: C113.)", "quantifier": "every label vector, ranking, n", "why_tests_cant": "All rankings.", "anchors": ["dhg/metrics/retrieval.py:pr_curve", "dhg/metrics/retrieval.py:_pr_curve"]}
{"id": "C58", "title": "Epoch results are means over samples", "statement": "Evaluating metrics batch by batch with BaseEvaluator and asking for the epoch result gives, for every metric under its own marker, the mean over all samples of all batches accepted since the last epoch result, for every way of cutting the data into batches and whatever epochs came before; it equals validate on the concatenated data when every part is accepted; asking again without new batches repeats the last validation result, asking without any validation data raises AssertionError. (test_epoch_res without data: C107; returned dict: C108; refused batches: C111; shared markers: C109.)", "quantifier": "every sequence of add_batch/epoch calls, every batch partition, every list of metrics", "why_tests_cant": "Unbounded histories and partitions.", "anchors": ["dhg/metrics/base.py:BaseEvaluator"]}
{"id": "C59", "title": "Metric configuration markers", "statement": "format_metric_configs produces one slot per configured metric, in order, with the configured name and parameters; configurations with integers, identifiers and floats as values get distinct markers unless they agree up to floats at most 1/10000 apart, and test then returns every metric's value under its own marker; an unknown task or a configuration of another type raises ValueError, an unknown metric or a dict with other than one entry raises AssertionError, decided by the first bad configuration. (Collisions: C109.)", "quantifier": "every metric configuration list", "why_tests_cant": "All configurations; injectivity of a string encoding.", "anchors": ["dhg/metrics/base.py:format_metric_configs", "dhg/metrics/base.py:BaseEvaluator.test"]}
{"id": "C60", "title": "Classification metrics", "statement": "accuracy is the fraction of matching labels, in [0,1]; row i, column j of the confusion matrix counts the samples of the i-th occurring label predicted as the j-th, its entries sum to the number of samples and its diagonal to the number of matches; both are invariant under reordering of samples; different lengths raise AssertionError.", "quantifier": "every label and prediction vector or score matrix", "why_tests_cant": "All vectors.", "anchors": ["dhg/metrics/classification.py:accuracy", "dhg/metrics/classification.py:confusion_matrix"]}
{"id": "C61", "title": "UserItemDataset negative sampling and masks", "statement": "In training a sample is an interaction of the list (the one at the index with strict_link, one of the drawn user without) together with a drawn item that is none of the user's; the first such draw ends the search. At test time the train mask is -inf at exactly the user's training items and the rating 1 at exactly the test items, 0 elsewhere. len is the number of interactions (train) or users (test). A user with an item number outside [-num_items, num_items) gets IndexError at test time. See C117-C119 for the users and indices for which this fails.", "quantifier": "every interaction list, every random stream", "why_tests_cant": "All random streams.", "anchors": ["dhg/utils/dataset_wrapers.py:UserItemDataset"]}
{"id": "C62", "title": "Dataset content is loaded lazily and once", "statement": "BaseData[key] returns a result of the item's loader piped through the preprocessing steps in order; in every access sequence each loader gives a value at most once, a value once returned is returned by every later access without fetching or loading, files are fetched and loaders called only for requested items and with the item's own files, and failures (or loaders returning None) are not remembered.", "quantifier": "every access sequence, loader and download behaviour", "why_tests_cant": "Unbounded access histories.", "anchors": ["dhg/data/base.py:BaseData", "dhg/datapipe/common.py:compose_pipes"]}
{"id": "C63", "title": "Downloads are verified", "statement": "download_and_check returns only when a file with the expected md5 is at the target path, makes at most six requests (to the url and its backup), touches no other file except one of the legacy cache, makes no request when a good file is at the path or in the legacy cache, and stores a good file delivered by any of the six requests after answers with an error status. When it fails, no file is at the path except the bytes of an interrupted transfer (C116).", "quantifier": "every server behaviour (response sequence) and initial disk state", "why_tests_cant": "All failure sequences.", "anchors": ["dhg/utils/download.py:download_and_check", "dhg/utils/download.py:_retry"]}
{"id": "C64", "title": "Feature scaling", "statement": "min_max_scaler maps every matrix that is not constant linearly and increasingly so that the least entry becomes ft_min and the greatest ft_max; norm_ft multiplies every row with a non-zero entry by a positive number such that its norm (2-norm, p-norm, maximum) is 1, and keeps zero rows. A constant matrix raises ZeroDivisionError, an empty one RuntimeError, ft_min >= ft_max AssertionError.", "quantifier": "every feature matrix, every order p > 0", "why_tests_cant": "All matrices.", "anchors": ["dhg/datapipe/normalize.py:min_max_scaler", "dhg/datapipe/normalize.py:norm_ft"]}
{"id": "C65", "title": "BPR loss", "statement": "BPRLoss is the mean of ln(1 + exp(beta*neg - alpha*pos)) for both activations (any other name is an AssertionError); it is positive, strictly smaller when positive scores rise or negative scores fall, at most ln 2 when every pair is ranked rightly and at least ln 2 when every pair is ranked wrongly.", "quantifier": "all score vectors, all positive alpha and beta", "why_tests_cant": "All reals.", "anchors": ["dhg/nn/loss.py:BPRLoss"]}
{"id": "C66", "title": "Embedding regularisation", "statement": "For even p EmbeddingRegularization is the weighted p-th power sum divided by p and the number of rows, is non-negative, zero exactly on zero embeddings, and scales with the p-th power of a common factor. (Odd p and p=0 are C121.)", "quantifier": "all embeddings with at least one row, all even p > 0, all positive weights", "why_tests_cant": "All reals.", "anchors": ["dhg/nn/regularization.py:EmbeddingRegularization"]}
{"id": "C67", "title": "Vertex relabelling equivariance", "statement": "Renaming the vertices of a Graph or Hypergraph by a permutation (in the constructor call and every later call, or in any other history with the same content up to the renaming and the order of edges) and permuting the feature rows accordingly permutes the rows of the degrees, A, the Laplacians, L_GCN/L_HGNN smoothing, v2v and v2e results and changes nothing else.", "quantifier": "every reachable Graph and Hypergraph, every vertex permutation, every feature matrix", "why_tests_cant": "Factorially many permutations.", "anchors": ["dhg/structure/graphs/graph.py:Graph.v2v", "dhg/structure/graphs/graph.py:Graph.L_GCN", "dhg/structure/hypergraphs/hypergraph.py:Hypergraph.v2v", "dhg/structure/hypergraphs/hypergraph.py:Hypergraph.L_HGNN"]}
{"id": "C68", "title": "HyperGCN layer and uncached model", "statement": "A HyperGCNConv layer equals a GCNConv layer on the graph Graph.from_hypergraph_hypergcn builds from its linear output (or the cached graph given), and with fast=False the model's result of each forward call depends only on that call's arguments. (The default fast=True is C123.)", "quantifier": "every sequence of forward calls, every hypergraph", "why_tests_cant": "Call histories.", "anchors": ["dhg/models/hypergraphs/hypergcn.py:HyperGCN.forward", "dhg/nn/convs/hypergraphs/hypergcn_conv.py:HyperGCNConv.forward"]}
{"id": "C69", "title": "Convolution layers compute their documented formula", "statement": "GCN, GIN, GraphSAGE (mean), GAT, HGNN, HGNN+, HNHN, DHCF (jump), UniGCN and UniSAGE layers give, entry by entry, the documented expression in the vertices, edges and weights of the structure and the linear parameters; activation, batch norm and dropout follow unless is_last. (UniGIN is C122, UniGAT C125, single-entry structures for the attention layers C126.)", "quantifier": "every reachable structure, parameters, feature matrix; UniGCN: positive hyperedge weights", "why_tests_cant": "Universal over inputs.", "anchors": ["dhg/nn/convs/graphs/gcn_conv.py:GCNConv.forward", "dhg/nn/convs/graphs/gin_conv.py:GINConv.forward", "dhg/nn/convs/graphs/graphsage_conv.py:GraphSAGEConv.forward", "dhg/nn/convs/graphs/gat_conv.py:GATConv.forward", "dhg/nn/convs/hypergraphs/hgnn_conv.py:HGNNConv.forward", "dhg/nn/convs/hypergraphs/hgnnp_conv.py:HGNNPConv.forward", "dhg/nn/convs/hypergraphs/hnhn_conv.py:HNHNConv.forward", "dhg/nn/convs/hypergraphs/dhcf_conv.py:JHConv.forward", "dhg/nn/convs/hypergraphs/unignn_conv.py:UniGCNConv.forward", "dhg/nn/convs/hypergraphs/unignn_conv.py:UniSAGEConv.forward"]}
{"id": "C70", "title": "Experiment keeps the best epoch", "statement": "With direction 'maximize' BaseTask.experiment returns the greatest validation score over all epochs and saves the model of the first epoch that attained it (nan scores are skipped); it is pruned exactly when some epoch's should_prune says so. (Other directions are C124.)", "quantifier": "every score sequence and pruning behaviour", "why_tests_cant": "All score sequences.", "anchors": ["dhg/experiments/base.py:BaseTask.experiment"]}
{"id": "C71", "title": "Drawing geometry", "statement": "radian_from_atan returns the polar angle of (x,y) in [0,2pi) for every non-zero vector; the segment computed for two circles of which neither lies strictly inside the other is their outer tangent on the right-hand side of the way from the first to the second; for nested circles ValueError is raised.", "quantifier": "all real vectors, centres and radii", "why_tests_cant": "All reals.", "anchors": ["dhg/visualization/structure/geometry.py:radian_from_atan", "dhg/visualization/structure/geometry.py:common_tangent_radian", "dhg/visualization/structure/geometry.py:polar_position"]}
{"id": "C72", "title": "Force layout stays in the unit box", "statement": "Each axis of the coordinates that force_layout and bipartite_force_layout return lies in [0.1,0.9], attains both ends and keeps the order of the simulated positions, which stay within 85 (bipartite: 89.5) of the origin along each axis; or all coordinates of the axis are nan, and then the simulated positions agree along it or one of them is nan. A simulation in which no two points ever coincide raises nothing.", "quantifier": "every edge list, strength, random initialisation and jitter", "why_tests_cant": "All random initialisations.", "anchors": ["dhg/visualization/structure/layout.py:force_layout", "dhg/visualization/structure/layout.py:bipartite_force_layout", "dhg/visualization/structure/simulator.py:Simulator.simulate"]}
{"id": "C73", "title": "Defect: bipartite layout pulls the wrong vertices", "statement": "draw_bigraph draws edge (u,v) between rows u and num_u+v, but the layout pulls rows u and v together: the drawn end in V is never pulled by its edge, and if V is not larger than U no edge pulls any vertex of V at all.", "quantifier": "every bipartite graph, all positions", "why_tests_cant": "All graphs.", "anchors": ["dhg/visualization/structure/draw.py:draw_bigraph", "dhg/visualization/structure/layout.py:bipartite_force_layout", "dhg/visualization/structure/utils.py:edge_list_to_incidence_matrix"]}
{"id": "C74", "title": "Graph adjacency-list construction", "statement": "Graph/DiGraph/BiGraph.from_adj_list builds exactly the edges (first, other) of every line, merging duplicates, and a line without neighbours adds nothing.", "quantifier": "every adjacency list", "why_tests_cant": "All lists.", "anchors": ["dhg/structure/graphs/graph.py:Graph.from_adj_list", "dhg/structure/graphs/directed_graph.py:DiGraph.from_adj_list", "dhg/structure/graphs/bipartite_graph.py:BiGraph.from_adj_list"]}
{"id": "C75", "title": "Graph.v2v with custom weights and aggr='mean' multiplies instead of dividing", "statement": "The documented weighted mean of g.v2v(X,'mean',e_weight=w) is wrong on every graph: the result at v is (sum of the custom weights at v) TIMES (the weighted sum of the neighbours' features), so constant features are not preserved (one edge with weight 2 turns 1 into 4).", "quantifier": "every reachable Graph, every feature matrix, every custom weight vector", "why_tests_cant": "Universally quantified over graphs, weights and features; unit tests with unit weights do not see it.", "anchors": ["dhg/structure/graphs/graph.py:Graph.v2v"]}
{"id": "C76", "title": "Graph.v2v 'softmax_then_sum' without custom weights always raises", "statement": "g.v2v(X,'softmax_then_sum') without e_weight raises TypeError on every graph, although the docstring lists it as supported.", "quantifier": "every reachable Graph, every feature matrix", "why_tests_cant": "A universally quantified failure.", "anchors": ["dhg/structure/graphs/graph.py:Graph.v2v"]}
{"id": "C77", "title": "DiGraph.reverse_direction leaves stale answers behind", "statement": "reverse_direction does not invalidate the cache: on every graph, any of e, A, A_T, D_v_in, D_v_out, D_v_in_neg_1, D_v_out_neg_1 that was read before is returned unchanged after the reversal (so e still lists (0,1) when the graph now holds (1,0)), until a later mutation clears the cache.", "quantifier": "every reachable DiGraph and every cached query", "why_tests_cant": "Depends on the interleaving of queries and reversals.", "anchors": ["dhg/structure/graphs/directed_graph.py:DiGraph.reverse_direction", "dhg/structure/base.py:BaseGraph.e"]}
{"id": "C78", "title": "DiGraph.v2v with custom weights and aggr='mean' multiplies instead of dividing", "statement": "For every DiGraph, v2v(X,'mean','src2dst',e_weight=w) returns the total custom weight arriving at v TIMES the weighted sum, not the weighted average.", "quantifier": "every reachable DiGraph, feature matrix and custom weight vector", "why_tests_cant": "Universally quantified over graphs and real weights.", "anchors": ["dhg/structure/graphs/directed_graph.py:DiGraph.v2v"]}
{"id": "C80", "title": "BiGraph.u2v/v2u with custom weights and aggr='mean' multiply instead of dividing", "statement": "For every BiGraph, u2v(X,'mean',e_weight=w) and v2u(X,'mean',e_weight=w) return the total custom weight arriving at the vertex TIMES the weighted sum, not the documented weighted average (one edge of weight 2 turns 1 into 4).", "quantifier": "every reachable BiGraph, feature matrix and custom weight vector", "why_tests_cant": "Universally quantified over graphs and real weights; unit weights hide it.", "anchors": ["dhg/structure/graphs/bipartite_graph.py:BiGraph.u2v", "dhg/structure/graphs/bipartite_graph.py:BiGraph.v2u"]}
{"id": "C79", "title": "Negative vertex indices are accepted and break the graph", "statement": "_format_edges documents 'The vertices in edges must be in range [0, num_v)', but add_edges with a vertex < 0 succeeds; the edge is reported by e, and from then on A, D and message passing raise RuntimeError.", "quantifier": "every reachable graph, every pair with a negative endpoint below num_v", "why_tests_cant": "States the behaviour for every graph and every negative pair.", "anchors": ["dhg/structure/base.py:BaseGraph._format_edges", "dhg/structure/graphs/graph.py:Graph.add_edges", "dhg/structure/graphs/graph.py:Graph.A"]}
{"id": "C81", "title": "A weight list shorter than the edge list silently drops edges", "statement": "add_edges(edges, weights) with fewer weights than edges raises no error: the result equals adding only the first len(weights) edges, so the surplus edges are silently not added.", "quantifier": "every reachable graph, edge list and shorter weight list", "why_tests_cant": "All lists of all lengths.", "anchors": ["dhg/structure/base.py:BaseGraph._format_edges", "dhg/structure/base.py:BaseGraph.add_edges"]}
{"id": "C82", "title": "merge_op='mean' is not the mean", "statement": "Adding the same new pair with weights x, y, z under merge_op='mean' stores ((x+y)/2+z)/2, not (x+y+z)/3; hence the stored weight depends on the order. For two weights it is the mean.", "quantifier": "every reachable graph, every pair not yet stored, all weights", "why_tests_cant": "All graphs and weights.", "anchors": ["dhg/structure/base.py:BaseGraph._add_edge", "dhg/structure/graphs/graph.py:Graph.add_edges"]}
{"id": "C83", "title": "state_dict is a live view", "statement": "The dictionary returned by state_dict() shares the graph's edge dictionaries: an edge added to the graph after the call is part of the structure later built by from_state_dict from it.", "quantifier": "a reachable graph and a continuation (witness)", "why_tests_cant": "Aliasing is only visible under particular interleavings.", "anchors": ["dhg/structure/graphs/graph.py:Graph.state_dict", "dhg/structure/graphs/graph.py:Graph.from_state_dict"]}
{"id": "C84", "title": "Rejected add_hyperedges leaves stale cached answers", "statement": "add_hyperedges with a merge_op other than mean/sum/max (the documentation also offers min) that hits an existing hyperedge raises, but the hyperedges before it in the list are already stored and the cache is kept, so e_of_group keeps answering the old hyperedges while num_e_of_group counts the new one.", "quantifier": "every reachable hypergraph", "why_tests_cant": "Needs a rejected call after cached queries; the general form says when answers stay stale.", "anchors": ["dhg/structure/hypergraphs/hypergraph.py:Hypergraph.add_hyperedges", "dhg/structure/base.py:BaseHypergraph._add_hyperedge", "dhg/structure/base.py:BaseHypergraph._merge_hyperedges"]}
{"id": "C85", "title": "A Hypergraph without hyperedge groups cannot be queried", "statement": "On a Hypergraph with no hyperedge group (as created with e_list=None) every whole-hypergraph matrix query raises RuntimeError from torch.vstack/cat of an empty list, rather than giving the empty or zero matrices.", "quantifier": "every hypergraph without groups", "why_tests_cant": "States which of all queries fail, for any number of vertices.", "anchors": ["dhg/structure/hypergraphs/hypergraph.py:Hypergraph.H", "dhg/structure/hypergraphs/hypergraph.py:Hypergraph.D_v", "dhg/structure/hypergraphs/hypergraph.py:Hypergraph.L_HGNN"]}
{"id": "C86", "title": "Vertex weights are lost by clone, save/load and drop", "statement": "Whatever the vertex weights of a Hypergraph are, its clone, its reloaded copy and the result of drop_hyperedges(_of_group) report weight 1 for every vertex.", "quantifier": "every reachable Hypergraph", "why_tests_cant": "All states.", "anchors": ["dhg/structure/hypergraphs/hypergraph.py:Hypergraph.state_dict", "dhg/structure/hypergraphs/hypergraph.py:Hypergraph.from_state_dict", "dhg/structure/hypergraphs/hypergraph.py:Hypergraph.clone", "dhg/structure/hypergraphs/hypergraph.py:Hypergraph.drop_hyperedges", "dhg/structure/hypergraphs/hypergraph.py:Hypergraph.drop_hyperedges_of_group"]}
{"id": "C87", "title": "clear() makes W_v unusable", "statement": "After clear() a Hypergraph reports no vertex weights (None) and W_v raises TypeError, although the vertices remain.", "quantifier": "every reachable Hypergraph", "why_tests_cant": "All states.", "anchors": ["dhg/structure/base.py:BaseHypergraph.clear", "dhg/structure/hypergraphs/hypergraph.py:Hypergraph.W_v", "dhg/structure/hypergraphs/hypergraph.py:Hypergraph.v_weight"]}
{"id": "C88", "title": "subgraph keeps only one weight on collision", "statement": "When several hyperedges of a group are cut down to the same hyperedge by subgraph, the result has the weight of the last of them and the other weights are discarded, unlike add_hyperedges which merges.", "quantifier": "every reachable Hypergraph and vertex list", "why_tests_cant": "All subsets and collisions.", "anchors": ["dhg/structure/base.py:BaseHypergraph.subgraph", "dhg/structure/base.py:BaseHypergraph._subgraph_filter_hyperedge"]}
{"id": "C89", "title": "A clone can answer a W_v that contradicts its v_weight", "statement": "A Hypergraph cloned after W_v was asked for keeps the cached W_v of the original while reporting v_weight 1, so W_v of the clone is not the diagonal of its own v_weight.", "quantifier": "every reachable Hypergraph with vertex weights", "why_tests_cant": "Depends on the query history before cloning.", "anchors": ["dhg/structure/hypergraphs/hypergraph.py:Hypergraph.clone", "dhg/structure/hypergraphs/hypergraph.py:Hypergraph.W_v", "dhg/structure/hypergraphs/hypergraph.py:Hypergraph.v_weight"]}
{"id": "C90", "title": "from_feature_kNN merges equal neighbourhoods", "statement": "Although documented as building one hyperedge per vertex, from_feature_kNN yields fewer hyperedges than vertices whenever two vertices have the same k-nearest set (they are stored under one key, with weight 1).", "quantifier": "every neighbour oracle in which two vertices coincide", "why_tests_cant": "Depends on coincidences in the data.", "anchors": ["dhg/structure/hypergraphs/hypergraph.py:Hypergraph.from_feature_kNN", "dhg/structure/hypergraphs/hypergraph.py:Hypergraph._e_list_from_feature_kNN", "dhg/structure/base.py:BaseHypergraph.add_hyperedges"]}
{"id": "C91", "title": "from_bigraph merges vertices with equal neighbours", "statement": "Hypergraph.from_bigraph yields fewer hyperedges than non-isolated vertices of the other side whenever two of these have the same neighbours, so a bipartite graph is not recovered from its hypergraph.", "quantifier": "every reachable bipartite graph with two such vertices", "why_tests_cant": "Depends on coincidences in the data.", "anchors": ["dhg/structure/hypergraphs/hypergraph.py:Hypergraph.from_bigraph", "dhg/structure/hypergraphs/hypergraph.py:Hypergraph._e_list_from_bigraph"]}
{"id": "C92", "title": "Clique expansion ignores miu", "statement": "from_hypergraph_clique accepts a parameter miu but overwrites it with 1.0: for every miu other than 1 every reported weight is the number of shared hyperedges and not miu times that number.", "quantifier": "every hypergraph, every miu <> 1", "why_tests_cant": "All hypergraphs and parameters.", "anchors": ["dhg/structure/graphs/graph.py:Graph.from_hypergraph_clique"]}
{"id": "C93", "title": "HyperGCN expansion with mediators drops the extreme pair", "statement": "With with_mediator=True the edge between the two extreme vertices is never generated, so the weights made from a hyperedge of n vertices add up to (2n-4)/(2n-3) instead of 1; a hypergraph of 2-vertex hyperedges yields no edges at all, raising IndexError with the default remove_selfloop=True.", "quantifier": "every hyperedge, every projection", "why_tests_cant": "All inputs.", "anchors": ["dhg/structure/graphs/graph.py:Graph.from_hypergraph_hypergcn"]}
{"id": "C94", "title": "remap_adj_list fails on isolated vertices", "statement": "An adjacency-list line with a single marker (a vertex without neighbours, which adj_list_to_edge_list accepts) makes remap_adj_list raise KeyError unless that marker also occurs in a longer line: markers are collected from lines with at least two entries but replaced in all lines. With bipartite_graph=True it fails unless the marker heads a longer line.", "quantifier": "every adjacency list with such a line", "why_tests_cant": "All adjacency lists and marker types.", "anchors": ["dhg/utils/structure.py:remap_adj_list", "dhg/utils/structure.py:remap_adj_lists"]}
{"id": "C95", "title": "Integer markers are renumbered in string order", "statement": "remap_* converts markers to strings before sorting, so integer markers are not numbered in numeric order: 10 comes before 2, and an edge list over the vertices 0..10 that is already contiguous is renumbered.", "quantifier": "every str function agreeing with Python on the numbers used", "why_tests_cant": "Tests with fewer than 11 vertices never show it.", "anchors": ["dhg/utils/structure.py:remap_edge_list", "dhg/utils/structure.py:remap_adj_list"]}
{"id": "C96", "title": "Splits ignore labels outside 0..k-1", "statement": "split_by_num takes the number of distinct labels k as the number of classes and only handles labels 0..k-1 (1..k when the smallest label is 1): vertices with any other label are in none of the returned masks, even when the test set is 'all remaining vertices'.", "quantifier": "every label vector with at least two entries, every shuffle", "why_tests_cant": "Depends on gaps in the label set.", "anchors": ["dhg/utils/dataset_split.py:split_by_num", "dhg/utils/dataset_split.py:split_by_ratio"]}
{"id": "C97", "title": "C(n,m) is 1 outside 0..n", "statement": "C(n,m) returns 1 whenever m > n or m < 0, where the number of subsets is 0.", "quantifier": "all n, m outside the range", "why_tests_cant": "Infinitely many arguments.", "anchors": ["dhg/utils/math.py:C"]}
{"id": "C98", "title": "Defect: G(n,m) generators refuse the complete graph", "statement": "graph_Gnm(n, n(n-1)/2) and digraph_Gnm(n, n(n-1)) raise AssertionError saying that num_e is larger than the possible number of edges, for every n > 1, although the structure with that many edges exists (the bound is strict; bigraph_Gnm accepts the complete bipartite graph).", "quantifier": "every n > 1", "why_tests_cant": "The boundary for every n.", "anchors": ["dhg/random/graphs/graph.py:graph_Gnm", "dhg/random/graphs/directed_graph.py:digraph_Gnm"]}
{"id": "C99", "title": "Defect: fast G(n,p) generators fail at prob 0 and 1", "statement": "graph_Gnp_fast and digraph_Gnp_fast check that prob is between 0 and 1 inclusive, but raise ZeroDivisionError for prob = 0 and ValueError for prob = 1, for every n > 1 and every random stream.", "quantifier": "every n > 1, random stream", "why_tests_cant": "Every stream and n.", "anchors": ["dhg/random/graphs/graph.py:graph_Gnp_fast", "dhg/random/graphs/directed_graph.py:digraph_Gnp_fast"]}
{"id": "C100", "title": "Defect: infeasible hypergraph requests never return", "statement": "uniform_hypergraph_Gnm(k, n, m) with m above the number of k-subsets, and hypergraph_Gnm(n, m) with m above 2^n-n-1 (or above the number of subsets of the sizes that the weights allow), are not refused: the loop runs forever for every random stream.", "quantifier": "every n, k, infeasible m, random stream", "why_tests_cant": "Non-termination cannot be observed by a test.", "anchors": ["dhg/random/hypergraphs/hypergraph.py:uniform_hypergraph_Gnm", "dhg/random/hypergraphs/hypergraph.py:hypergraph_Gnm"]}
{"id": "C101", "title": "Defect: the check for binary labels", "statement": "precision and recall check that labels are binary by comparing the largest label of the whole batch with 1. A batch with valid binary labels in which nothing is relevant raises AssertionError, for every k; labels that are not binary but have maximum 1 are accepted, and precision then leaves [0,1].", "quantifier": "every batch of zeros, score matrix, k", "why_tests_cant": "Every batch shape and depth.", "anchors": ["dhg/metrics/retrieval.py:precision", "dhg/metrics/retrieval.py:recall", "dhg/metrics/recommender.py:precision", "dhg/metrics/recommender.py:recall"]}
{"id": "C102", "title": "Defect: non-positive k is accepted", "statement": "precision, recall, ... do not check k: k=0 makes precision nan, k=-j makes precision minus hits(n-j)/j and recall the recall at depth n-j, for every binary input.", "quantifier": "every binary label matrix, score matrix, 1<=j<=n", "why_tests_cant": "All inputs.", "anchors": ["dhg/metrics/retrieval.py:_format_inputs", "dhg/metrics/retrieval.py:precision", "dhg/metrics/retrieval.py:recall"]}
{"id": "C103", "title": "Defect: ap, map and pr_curve ignore k and ratio", "statement": "The documented arguments k and ratio (top-k) of ap, map and pr_curve have no effect at all: the result is the same for every k and every valid ratio, so ap@1 depends on items ranked below 1.", "quantifier": "every input, k, ratio", "why_tests_cant": "All inputs.", "anchors": ["dhg/metrics/retrieval.py:ap", "dhg/metrics/retrieval.py:map", "dhg/metrics/retrieval.py:pr_curve"]}
{"id": "C104", "title": "Defect: rr is not the reciprocal rank", "statement": "With two or more relevant items in the top k, rr is strictly less than the reciprocal of the rank of the first relevant item: ranking a second relevant item better can lower it.", "quantifier": "every binary label vector with two relevant items in the top k, score vector, k", "why_tests_cant": "All inputs.", "anchors": ["dhg/metrics/retrieval.py:rr", "dhg/metrics/retrieval.py:mrr"]}
{"id": "C105", "title": "Defect: queries without relevant items", "statement": "For a query without a relevant item (rr: in the top k) ap and rr are nan and one such query makes map and mrr over the batch nan; pr_curve raises IndexError. (recall and ndcg count such queries as 0.)", "quantifier": "every score vector, k, batch", "why_tests_cant": "All batches.", "anchors": ["dhg/metrics/retrieval.py:ap", "dhg/metrics/retrieval.py:map", "dhg/metrics/retrieval.py:rr", "dhg/metrics/retrieval.py:mrr", "dhg/metrics/retrieval.py:_pr_curve"]}
{"id": "C106", "title": "Defect: ratio raises NameError in the recommender metrics", "statement": "precision, recall and ndcg of dhg.metrics.recommender document an argument ratio, but for every ratio and every pair of inputs of equal shape they raise NameError (np is not imported).", "quantifier": "every input, ratio", "why_tests_cant": "All inputs.", "anchors": ["dhg/metrics/recommender.py:_format_inputs"]}
{"id": "C113", "title": "Defect: pr_curve overstates precision", "statement": "The precision that pr_curve reports at a recall c is read at index floor(c*(m-1)) of the m relevant items, which can lie at a smaller recall than c: there are inputs for which it exceeds every precision reached at recall c or beyond, also for 'pascal_voc'.", "quantifier": "a witness for every tie order, k, ratio", "why_tests_cant": "Needs the exact reference value.", "anchors": ["dhg/metrics/retrieval.py:_pr_curve"]}
{"id": "C107", "title": "Defect: test_epoch_res without data returns an empty dict", "statement": "The code asserts that there is a previous result, but the result dict is empty and not None at the start: on an evaluator that never received a test batch, after any other calls, test_epoch_res returns {} instead of failing.", "quantifier": "every history without test batches", "why_tests_cant": "Unbounded histories.", "anchors": ["dhg/metrics/base.py:BaseEvaluator.test_epoch_res"]}
{"id": "C108", "title": "Defect: the returned dict is overwritten by the next epoch", "statement": "test_epoch_res returns the evaluator's own dict: after the next epoch the caller's earlier result holds the values of that later epoch.", "quantifier": "every history, every list of metrics", "why_tests_cant": "Unbounded histories.", "anchors": ["dhg/metrics/base.py:BaseEvaluator.test_epoch_res"]}
{"id": "C109", "title": "Defect: different configurations share a slot", "statement": "Markers print floats with four decimals: configurations whose floats round to the same value share one marker (e.g. ratio 0.1 and 0.10001, which select different depths). test then returns only the last metric's value, and the epoch result is the mean over the values of both metrics.", "quantifier": "every pair of floats with the same rounding, every pair of metrics and batches", "why_tests_cant": "All configurations.", "anchors": ["dhg/metrics/base.py:format_metric_configs", "dhg/metrics/base.py:BaseEvaluator.test_add_batch"]}
{"id": "C110", "title": "Defect: classification metrics cannot be evaluated by batches", "statement": "BaseEvaluator passes ret_batch, which accuracy, f1_score and confusion_matrix do not accept: in every evaluator for vertex classification every validate_add_batch and test_add_batch raises TypeError, and validate_epoch_res always fails.", "quantifier": "every configuration, history, batch", "why_tests_cant": "All histories.", "anchors": ["dhg/metrics/base.py:BaseEvaluator", "dhg/metrics/classification.py:accuracy", "dhg/metrics/classification.py:f1_score", "dhg/metrics/classification.py:confusion_matrix"]}
{"id": "C111", "title": "Defect: refused batches are partly recorded", "statement": "When one metric raises on a test batch, the values of the metrics before it stay recorded, so the epoch results of different metrics are over different samples. precision refuses a batch in which nothing is relevant although it accepts the same rows together with others, so the epoch result depends on how the data are cut into batches.", "quantifier": "every pair of metrics and batches; every binary label matrix cut into a part with and a part without relevant items", "why_tests_cant": "All batch partitions.", "anchors": ["dhg/metrics/base.py:BaseEvaluator.test_add_batch", "dhg/metrics/base.py:BaseEvaluator.validate_add_batch"]}
{"id": "C112", "title": "Defect: pr_curve cannot be the validation metric", "statement": "With pr_curve (any number of points but one) as validation metric, batches are accepted, but after every history with an accepted batch validate_epoch_res raises ValueError, and never recovers.", "quantifier": "every history, number of points, batches", "why_tests_cant": "Unbounded histories.", "anchors": ["dhg/metrics/base.py:BaseEvaluator.validate_epoch_res"]}
{"id": "C114", "title": "Defect: datasets outside the cache root cannot be downloaded", "statement": "For a path that is not below CACHE_ROOT (e.g. BaseData with data_root) and a missing file, download_and_check raises ValueError without any request, whatever the server would deliver: the search for a legacy file computes file_path.relative_to(CACHE_ROOT) unconditionally.", "quantifier": "every path outside the cache root, every server", "why_tests_cant": "All paths and servers.", "anchors": ["dhg/utils/download.py:_try_migrate_from_legacy_cache"]}
{"id": "C115", "title": "Defect: corrupt downloads are not repeated", "statement": "The message says the corrupted file is deleted and downloaded again, but the ValueError is not among the retried exceptions: a complete download with a wrong md5 fails after this one request.", "quantifier": "every server, every content", "why_tests_cant": "All server behaviours.", "anchors": ["dhg/utils/download.py:download_and_check"]}
{"id": "C116", "title": "Defect: an interrupted transfer leaves a partial file", "statement": "A transfer that breaks off is not retried and leaves its bytes at the target path when the url is not below the remote root or the backup cannot be reached; the next call then raises ValueError without any request.", "quantifier": "every server, every interrupted content", "why_tests_cant": "All failure sequences.", "anchors": ["dhg/utils/download.py:download_file", "dhg/utils/download.py:download_and_check"]}
{"id": "C117", "title": "Defect: a user with all items blocks the training loop", "statement": "For an interaction of a user who holds every item, UserItemDataset.__getitem__ never returns, for every random stream.", "quantifier": "every list with such a user, every random stream, every number of steps", "why_tests_cant": "Non-termination.", "anchors": ["dhg/utils/dataset_wrapers.py:UserItemDataset.sample_neg_item"]}
{"id": "C118", "title": "Defect: iteration over UserItemDataset does not end", "statement": "Indices at or beyond len do not raise IndexError in the test phase (they give zero rows) and in training without strict_link (the index is not used), so a for loop over the dataset does not stop.", "quantifier": "every dataset, every index", "why_tests_cant": "All indices.", "anchors": ["dhg/utils/dataset_wrapers.py:UserItemDataset.__getitem__"]}
{"id": "C119", "title": "Defect: users without interactions", "statement": "Without strict_link, drawing a user who has no interaction raises AssertionError.", "quantifier": "every list, every such draw", "why_tests_cant": "All random streams.", "anchors": ["dhg/utils/dataset_wrapers.py:UserItemDataset.sample_triplet"]}
{"id": "C120", "title": "Text tables", "statement": "load_from_txt returns for a file with any header lines followed by rows of non-empty cells with one separator between two cells (and any white space around the row) exactly the cast cells; blank lines and doubled separators give an empty cell that is cast too.", "quantifier": "every table, separator set, cast function", "why_tests_cant": "All tables.", "anchors": ["dhg/datapipe/loader.py:load_from_txt"]}
{"id": "C121", "title": "Defect: odd powers in EmbeddingRegularization", "statement": "For odd p the penalty is odd (no absolute value is taken): it changes sign with the embeddings, so it is negative for negative embeddings; p=0 is a ZeroDivisionError.", "quantifier": "all embeddings, all odd p", "why_tests_cant": "All reals.", "anchors": ["dhg/nn/regularization.py:EmbeddingRegularization"]}
{"id": "C122", "title": "Defect: UniGIN weighs the messages, not the vertex", "statement": "UniGINConv documents ((1+eps) x_i + sum of hyperedge messages) theta, but computes x_i theta + (1+eps) sum of hyperedge messages.", "quantifier": "every hypergraph, parameters, features", "why_tests_cant": "Universal over inputs.", "anchors": ["dhg/nn/convs/hypergraphs/unignn_conv.py:UniGINConv.forward"]}
{"id": "C123", "title": "Defect: HyperGCN keeps the first hypergraph", "statement": "With fast=True (the default) every forward call after the first that built a graph uses that graph, whatever hypergraph is passed; the graph is built from the features of the first call.", "quantifier": "every sequence of forward calls", "why_tests_cant": "Call histories.", "anchors": ["dhg/models/hypergraphs/hypergcn.py:HyperGCN.forward"]}
{"id": "C124", "title": "Defect: trials that cannot be saved", "statement": "With any direction but 'maximize', and with 'maximize' when no score exceeds minus infinity (e.g. max_epoch=0), every trial that is not pruned ends in AttributeError; without data['structure'] (optional in recommender tasks) a trial trains, writes the model file and then raises KeyError.", "quantifier": "every score sequence, every direction", "why_tests_cant": "All score sequences.", "anchors": ["dhg/experiments/base.py:BaseTask.experiment"]}
{"id": "C125", "title": "Defect: UniGAT attention ignores the vertex", "statement": "UniGATConv documents attention scores from the vertex and the hyperedge; the scores depend on the hyperedge message only, and the result is their softmax over the hyperedges at each vertex.", "quantifier": "every hypergraph with other than one incidence, parameters, features", "why_tests_cant": "Universal over inputs.", "anchors": ["dhg/nn/convs/hypergraphs/unignn_conv.py:UniGATConv.forward"]}
{"id": "C126", "title": "Defect: attention layers on a single incidence", "statement": "GATConv on a graph with exactly one entry in e_src (one vertex's self-loop) and UniGATConv on a hypergraph with exactly one incidence raise IndexError: squeeze() removes the only dimension.", "quantifier": "every such structure, all parameters and features", "why_tests_cant": "Universal over inputs.", "anchors": ["dhg/nn/convs/graphs/gat_conv.py:GATConv.forward", "dhg/nn/convs/hypergraphs/unignn_conv.py:UniGATConv.forward"]}
{"id": "C127", "title": "LightGCN", "statement": "LightGCN's user and item embeddings are the mean over k = 0..num_layers of the k-th power of the normalised adjacency (with self-loops) of the user-item graph applied to the initial embeddings, channel by channel.", "quantifier": "every reachable BiGraph, layer number, embeddings of matching size", "why_tests_cant": "All graphs and layer numbers.", "anchors": ["dhg/models/graphs/lightgcn.py:LightGCN.forward"]}
{"id": "C128", "title": "MultiHeadWrapper", "statement": "With heads that agree on the shape, 'concat' puts their channels side by side, 'sum' and 'mean' add and average entry by entry and 'max' takes the greatest entry; any other readout is a ValueError, an exception of a head comes through, and no heads are a RuntimeError.", "quantifier": "every number of heads, every output", "why_tests_cant": "All head counts and outputs.", "anchors": ["dhg/nn/convs/common.py:MultiHeadWrapper"]}
{"id": "C129", "title": "Search over trials", "statement": "BaseTask.run (maximizing) ends with the saved model and structure of the first trial whose score no trial exceeds, and removes every cached file of other trials; the files are told apart by the number in their name. Of the files that were in the cache directory before, exactly those stay whose name is that trial's number, alone, followed by an underscore and anything, or followed by one non-empty extension; whatever else the user kept there is deleted. The first exception other than pruning ends the search, and a study with nothing but pruned trials is a ValueError. A failing trial leaves every cached file of the trials before it in place, besides its own model file, which is empty if no epoch produced a model.", "quantifier": "every sequence of trials, every initial content of the cache directory", "why_tests_cant": "All trial sequences.", "anchors": ["dhg/experiments/base.py:BaseTask.run", "dhg/experiments/base.py:BaseTask._remove_cached_data"]}
{"id": "C130", "title": "Defect: a single vertex is drawn at nan", "statement": "force_layout of a structure with one vertex and one (hyper)edge succeeds and returns the coordinates (nan, nan).", "quantifier": "every strength, initialisation and jitter", "why_tests_cant": "All random initialisations.", "anchors": ["dhg/visualization/structure/layout.py:force_layout"]}
{"id": "C131", "title": "Outlines of hyperedges", "statement": "hull_layout gives every hyperedge one outline: a circle for a single vertex, otherwise a closed chain of outer tangents and arcs around corners that are vertices of the hyperedge (both if there are two). Where the outlines of a smaller and of a larger hyperedge go around the same vertex the larger one is further out by at least 0.3 times the vertex size.", "quantifier": "every hyperedge list, sizes, positions, every convex hull routine with valid indices", "why_tests_cant": "All positions and hyperedge lists.", "anchors": ["dhg/visualization/structure/utils.py:hull_layout"]}
{"id": "C132", "title": "Straight edges end on the rims", "statement": "The arrow drawn for an edge lies on the line through its vertices, starts on the rim of the first and ends on that of the second and does not turn back unless the circles overlap; it is nan exactly if the vertices are at the same place. In a drawing of a graph or digraph this holds for every edge with the circles that are drawn for its two vertices.", "quantifier": "all positions and sizes", "why_tests_cant": "All reals.", "anchors": ["dhg/visualization/structure/utils.py:draw_line_edge"]}
{"id": "C133", "title": "Defect: options of draw_graph and draw_digraph without effect", "statement": "font_size and push_e_strength have no influence on what draw_graph and draw_digraph draw (labels always have size 20 exp(-n/100)), and a v_label list shorter than the number of vertices makes the vertices without a label disappear while all their edges are drawn.", "quantifier": "every structure and option (line style)", "why_tests_cant": "All structures and options.", "anchors": ["dhg/visualization/structure/draw.py:draw_graph", "dhg/visualization/structure/draw.py:draw_digraph", "dhg/visualization/structure/utils.py:draw_vertex"]}
{"id": "C134", "title": "Maps of the Poincare ball", "statement": "expmap0 maps every vector into the open ball of radius 1/sqrt(c), keeping its direction; proj keeps what is within (1-1e-5)/sqrt(c) and moves everything else onto that rim, keeping its direction; logmap0 undoes expmap0 for norms neither tiny nor beyond the clamp.", "quantifier": "all vectors of any dimension, all c > 0", "why_tests_cant": "All reals.", "anchors": ["dhg/visualization/feature/utils.py:expmap0", "dhg/visualization/feature/utils.py:proj", "dhg/visualization/feature/utils.py:logmap0"]}
{"id": "C135", "title": "Points drawn in the Poincare ball", "statement": "Every finite point that project_to_poincare_ball returns lies strictly inside the ball of radius 1/sqrt(2), whatever PCA or t-SNE return. The way into the ball and back before the reduction changes nothing (rows scaled to norm 1 with a zero in front come out), a row of zeros is a ValueError, and a constant reduced column turns every point into nan. A dimension other than 2 and 3 is an AssertionError.", "quantifier": "every feature matrix, every reduction", "why_tests_cant": "All matrices and reductions.", "anchors": ["dhg/visualization/feature/utils.py:project_to_poincare_ball"]}
{"id": "C136", "title": "Plotted embeddings stay in the unit box", "statement": "The coordinates that plot_2d_embedding and plot_3d_embedding draw lie in [0.1,0.9] along each axis, attain both ends and keep the order of the reduced points, unless all reduced points agree in it, when all are nan.", "quantifier": "every reduced embedding", "why_tests_cant": "All reals.", "anchors": ["dhg/visualization/feature/utils.py:normalize", "dhg/visualization/feature/utils.py:plot_2d_embedding", "dhg/visualization/feature/utils.py:plot_3d_embedding"]}
{"id": "C137", "title": "Defect: vertex weights of a hypergraph are the caller's list", "statement": "Hypergraph(..., v_weight=w) keeps the list w itself and hg.v_weight returns it. Two hypergraphs built with the same list share their weights: assigning to an element of the one's v_weight changes what the other reports. Such an assignment is not noticed by a W_v computed before it, so v_weight and W_v then disagree.", "quantifier": "every reachable hypergraph, every second hypergraph built on its list, every index and value", "why_tests_cant": "Aliasing bugs need particular sharing and orders of calls.", "anchors": ["dhg/structure/hypergraphs/hypergraph.py:Hypergraph.__init__", "dhg/structure/hypergraphs/hypergraph.py:Hypergraph.v_weight", "dhg/structure/hypergraphs/hypergraph.py:Hypergraph.W_v"]}
{"id": "C138", "title": "Defect: the caller's list of hyperedges is rewritten", "statement": "The constructor, add_hyperedges and remove_hyperedges replace the elements of the list of hyperedges they are given by sorted tuples; the caller's list is unchanged only if all hyperedges were written in ascending order (or a tuple was given). Passing the rewritten list again has the same effect as the original, in every history.", "quantifier": "every list of hyperedges, every history", "why_tests_cant": "All lists and histories.", "anchors": ["dhg/structure/base.py:BaseHypergraph._format_e_list", "dhg/structure/hypergraphs/hypergraph.py:Hypergraph.add_hyperedges", "dhg/structure/hypergraphs/hypergraph.py:Hypergraph.remove_hyperedges"]}
{"id": "C139", "title": "Graph networks see k steps far", "statement": "In evaluation mode, a GCN or GraphSAGE network of k layers, and a GIN network of k layers with its linear predictions, gives an answer for every feature matrix of the right shape, and the row of a vertex v in the answer is determined by the features of the vertices at most k edges away from v: changing any other vertex cannot change it. GAT (heads side by side, then one layer) is determined within two edges. This holds for every graph reached by any history of changes, all parameters, activations, batch normalisations and widths.", "quantifier": "every reachable graph, every number of layers, all parameters and features", "why_tests_cant": "Networks, graphs and features are unbounded; a leak through a wrong normalisation or aggregation shows only on particular graphs.", "anchors": ["dhg/models/graphs/gcn.py:GCN.forward", "dhg/models/graphs/graphsage.py:GraphSAGE.forward", "dhg/models/graphs/gin.py:GIN.forward", "dhg/models/graphs/gat.py:GAT.forward", "dhg/nn/convs/common.py:MLP"]}
{"id": "C140", "title": "Hypergraph networks see k shared hyperedges far", "statement": "In evaluation mode, an HGNN, HGNN+, HNHN, UniSAGE or UniGIN network of k layers (and UniGCN, when all hyperedge weights are positive) gives an answer for every feature matrix of the right shape, and the row of a vertex v is determined by the features of the vertices reached from v by at most k steps, each between two vertices of one hyperedge. UniGAT is determined within two steps.", "quantifier": "every reachable hypergraph, every number of layers, all parameters and features", "why_tests_cant": "Networks, hypergraphs and features are unbounded.", "anchors": ["dhg/models/hypergraphs/hgnn.py:HGNN.forward", "dhg/models/hypergraphs/hgnnp.py:HGNNP.forward", "dhg/models/hypergraphs/hnhn.py:HNHN.forward", "dhg/models/hypergraphs/unignn.py:UniGCN.forward", "dhg/models/hypergraphs/unignn.py:UniGAT.forward", "dhg/models/hypergraphs/unignn.py:UniSAGE.forward", "dhg/models/hypergraphs/unignn.py:UniGIN.forward"]}
{"id": "C141", "title": "NGCF and DHCF compute their layer formula and average the layers", "statement": "In evaluation mode, NGCF returns for users and items the average over the layers 0..L of the embeddings, where each layer maps x to the row-normalised sum of leaky_relu(W1 g + b1) and leaky_relu(W2 (x*g) + b2), g being x smoothed by the normalised adjacency (with self-loops) of the user-item graph. DHCF does the same with users and items smoothed by one hypergraph each and the input added inside the first leaky_relu. After the first layer every embedding has length at most 1 and entries in [-1, 1]. If there is a layer and the numbers of users and items do not fit the structures, RuntimeError is raised.", "quantifier": "every reachable bipartite graph / pair of hypergraphs, all parameters, embeddings and layer numbers", "why_tests_cant": "Parameters, graphs and embeddings are unbounded real data.", "anchors": ["dhg/models/graphs/ngcf.py:NGCF.forward", "dhg/models/hypergraphs/dhcf.py:DHCF.forward"]}
{"id": "C142", "title": "BGNN alternates between the two sides", "statement": "BGNN_Adv.forward of L layers gives the features of U obtained by L alternating steps, starting from V: each step replaces the features of one side by tanh of the edge-weighted sum of the linearly mapped features of the neighbours on the other side. With at least one layer all entries of the result are strictly between -1 and 1, for BGNN_MLP (with its decoders) too.", "quantifier": "every reachable bipartite graph, all parameters, features and depths", "why_tests_cant": "All depths, graphs and parameters.", "anchors": ["dhg/models/graphs/bgnn.py:BGNN_Adv.forward", "dhg/models/graphs/bgnn.py:BGNN_MLP.forward", "dhg/models/graphs/bgnn.py:Decoder.forward"]}
{"id": "C143", "title": "Defect: BGNN ignores X_u, and its last layer at even depth", "statement": "With at least one layer, forward(X_u, X_v, g) does not depend on X_u at all. With an even number of layers the last layer (with its decoder) has no influence on the result, except that it can raise an error.", "quantifier": "all parameters, features, graphs and depths", "why_tests_cant": "Needs all features and depths; the claim is about absence of influence.", "anchors": ["dhg/models/graphs/bgnn.py:BGNN_Adv.forward", "dhg/models/graphs/bgnn.py:BGNN_MLP.forward"]}
{"id": "C144", "title": "Layer-wise training of BGNN returns what the trained network answers", "statement": "Whatever the optimiser does to the layers, train_with_cascaded returns exactly what forward with the trained parameters answers for the same X_u, X_v and graph, and layer k is trained on the two feature matrices that the already trained layers before it produce.", "quantifier": "every optimiser (as a function of layer number, matrices and parameters), depth, graph and features", "why_tests_cant": "Training is an arbitrary computation; the property is about all of them.", "anchors": ["dhg/models/graphs/bgnn.py:BGNN_Adv.train_with_cascaded", "dhg/models/graphs/bgnn.py:BGNN_MLP.train_with_cascaded"]}
{"id": "C145", "title": "F1 score: micro is the accuracy, macro averages over classes, weighted over samples", "statement": "For at least one sample, f1_score with average macro is the mean, over the labels that occur among the true or predicted ones, of 2 hits / (samples of the class + predictions of the class); with micro it equals accuracy; with weighted it is the mean over the samples of the F1 of their true class. All three lie in [0, 1] and each is 1 exactly when every prediction is right. They do not depend on the order of the samples nor on the names of the classes, and macro and micro do not change when true and predicted labels are exchanged. Label vectors of different length raise AssertionError.", "quantifier": "all label vectors, all predictions (labels or scores)", "why_tests_cant": "Universally quantified over labels; the equality with accuracy and the iff need a proof.", "anchors": ["dhg/metrics/classification.py:f1_score"]}
{"id": "C146", "title": "Random features are one-hot label ranks plus noise", "statement": "normal_features returns one row per label and one column per distinct label, in ascending order of the labels; entry (i, c) is 1 if label i is the c-th distinct label and 0 otherwise, plus noise times a standard normal draw. With noise 0 two rows are equal exactly when the labels are. Other types raise TypeError, arrays that are not one-dimensional AssertionError, negative noise ValueError, an empty list IndexError.", "quantifier": "all label lists, noise levels and draws", "why_tests_cant": "Draws are random; every outcome is covered.", "anchors": ["dhg/random/feature.py:normal_features"]}
{"id": "C147", "title": "After set_seed everything is reproducible", "statement": "After set_seed(s) with 0 <= s < 2^32 the answers of every program that draws from random, numpy and torch, asks for seed() and sets further seeds are the same whatever happened before and at whatever time it runs. seed() is the time until set_seed is called and afterwards what was last passed to it.", "quantifier": "all programs, histories, clocks, and generators", "why_tests_cant": "All interleavings of draws and seeds, independent of the clock.", "anchors": ["dhg/random/_seed.py:seed", "dhg/random/_seed.py:set_seed"]}
{"id": "C148", "title": "Defect: a refused seed is half set", "statement": "set_seed with a number outside 0 .. 2^32-1 raises ValueError, yet afterwards seed() returns that number and python's generator is seeded with it, while numpy's and torch's generators go on as before.", "quantifier": "every such number and state", "why_tests_cant": "All states before the call.", "anchors": ["dhg/random/_seed.py:set_seed"]}
{"id": "C149", "title": "simple_stdout2file copies every later message", "statement": "Whatever a program prints and whichever files it starts logging to, the terminal shows every message once, and each file receives, after what it held before, every message once per logger installed on it before that message; other files are untouched. A path whose directory does not exist raises AssertionError and changes nothing.", "quantifier": "all programs, messages, paths and file contents", "why_tests_cant": "All interleavings of installing loggers and printing.", "anchors": ["dhg/utils/logging.py:simple_stdout2file"]}
{"id": "C150", "title": "Adding hyperedges of another structure equals building from it", "statement": "add_hyperedges_from_graph / _feature_kNN / _graph_kHop / _bigraph put into a new group exactly the hyperedges (order and weights) that from_graph / from_feature_kNN / from_graph_kHop / from_bigraph would give a hypergraph of its own. In an existing group hyperedges the source does not have keep their weight, hyperedges that were not there come with the source's weight, none is lost; other groups and the vertex weights are untouched. If the source has another number of vertices, AssertionError is raised; if the source cannot be turned into a hypergraph, the same error is raised; in both cases the hypergraph is unchanged.", "quantifier": "every reachable hypergraph, every source, every group name", "why_tests_cant": "All histories and sources.", "anchors": ["dhg/structure/hypergraphs/hypergraph.py:Hypergraph.add_hyperedges_from_graph", "dhg/structure/hypergraphs/hypergraph.py:Hypergraph.add_hyperedges_from_feature_kNN", "dhg/structure/hypergraphs/hypergraph.py:Hypergraph.add_hyperedges_from_graph_kHop", "dhg/structure/hypergraphs/hypergraph.py:Hypergraph.add_hyperedges_from_bigraph"]}
{"id": "C151", "title": "Inputs that the ranking metrics refuse", "statement": "precision, recall, ndcg, mrr, map and pr_curve (and the recommender metrics) raise AssertionError when y_true and y_pred have different shapes or more than two dimensions. In the retrieval metrics a ratio outside (0, 1] and an interpolation method that is not documented are refused with AssertionError as well; the metrics for one sample refuse batches. Otherwise the shape check passes.", "quantifier": "all tensors, cut-offs, ratios, method names", "why_tests_cant": "All shapes and values.", "anchors": ["dhg/metrics/retrieval.py:_format_inputs", "dhg/metrics/recommender.py:_format_inputs", "dhg/metrics/retrieval.py:map", "dhg/metrics/retrieval.py:pr_curve"]}
{"id": "C152", "title": "Which vertex numbers the neighbour queries accept", "statement": "For a structure with n vertices, N_v / N_in / N_out / N_e of a vertex number v < -n or v >= n raise an error (IndexError; AssertionError for v >= n in a hypergraph), and a number -n <= v < 0 is answered like v + n. Hop counts below 1 are refused with AssertionError. Within one group the numbers of hyperedges are treated the same way by N_v.", "quantifier": "every reachable structure, every integer", "why_tests_cant": "All integers and all histories.", "anchors": ["dhg/structure/graphs/graph.py:Graph.N_v", "dhg/structure/graphs/directed_graph.py:DiGraph.N_v_in", "dhg/structure/graphs/directed_graph.py:DiGraph.N_v_out", "dhg/structure/graphs/bipartite_graph.py:BiGraph.N_v", "dhg/structure/graphs/bipartite_graph.py:BiGraph.N_u", "dhg/structure/hypergraphs/hypergraph.py:Hypergraph.N_e", "dhg/structure/hypergraphs/hypergraph.py:Hypergraph.N_v"]}
{"id": "C153", "title": "Defect: negative hyperedge numbers count from the end of the first group", "statement": "In the whole hypergraph N_v(e_idx) with a negative number is looked up in the first group, not in the list of all hyperedges: -1 is the last hyperedge of the first group, and numbers below minus the size of the first group raise IndexError although the hypergraph has more hyperedges.", "quantifier": "every reachable hypergraph with at least one group", "why_tests_cant": "All histories and group sizes.", "anchors": ["dhg/structure/hypergraphs/hypergraph.py:Hypergraph.N_v"]}
{"id": "C154", "title": "Defect: hyperedges with vertices that do not exist are accepted and make the hypergraph unusable", "statement": "add_hyperedges (and the constructor) accept every list of vertex numbers, also negative numbers and numbers >= num_v. As soon as a group contains such a hyperedge, everything that is computed from its incidence matrix or that of the whole hypergraph (H, H_T, D_v, D_e, degrees, Laplacians, smoothing, message passing, neighbour queries) raises RuntimeError. Drawing it raises IndexError if a number is below -num_v or at least num_v.", "quantifier": "every reachable hypergraph, every hyperedge, every such query", "why_tests_cant": "All histories and queries.", "anchors": ["dhg/structure/hypergraphs/hypergraph.py:Hypergraph.add_hyperedges", "dhg/structure/hypergraphs/hypergraph.py:Hypergraph.H", "dhg/structure/base.py:BaseHypergraph._fetch_H_of_group"]}
{"id": "C155", "title": "Defect: a vertex written twice in a hyperedge counts twice", "statement": "A hyperedge is the sorted tuple of what was written: repeated vertices stay, so that (0,0,1) and (0,1) are different hyperedges. The entry of H is the number of times the vertex was written and the degree of the hyperedge is the number of entries, not of different vertices.", "quantifier": "every reachable hypergraph with vertices in range", "why_tests_cant": "All hyperedges with repetitions.", "anchors": ["dhg/structure/hypergraphs/hypergraph.py:Hypergraph.add_hyperedges", "dhg/structure/base.py:BaseHypergraph._fetch_H_of_group"]}
{"id": "C156", "title": "Settings of an evaluator are looked at when a metric is computed", "statement": "An evaluator can be built with settings that no metric knows (such as topk instead of k). Every validate / validate_add_batch with that metric then raises TypeError, and no result is recorded. Text in place of the number k or ratio raises TypeError too. A method that is not one of the two names raises AssertionError, a text as number of points TypeError.", "quantifier": "all settings, data and metrics", "why_tests_cant": "All configurations.", "anchors": ["dhg/metrics/base.py:BaseEvaluator.__init__", "dhg/metrics/base.py:format_metric_configs", "dhg/metrics/base.py:BaseEvaluator.validate_add_batch"]}
{"id": "C157", "title": "Where one step of the force layout moves the vertices", "statement": "As long as no two vertices are at the same place (nor the middles of two edges, if edges push each other), one step moves each vertex by twice the damped force, limited to 1/10 along each axis. The force is the sum of: the pull of every edge of the vertex towards the mean position of its vertices (a spring of length 1/10), the push away from every other vertex with the inverse square of the distance, the push of edges against each other passed on to their vertices, and the pull to the centre (for bipartite graphs the centre and the strengths of the vertex's side). The pushes between vertices cancel in sum. The simulation stops exactly when the moves have norm below 1/1000.", "quantifier": "all edges, positions, strengths, random draws", "why_tests_cant": "Real-valued inputs.", "anchors": ["dhg/visualization/structure/simulator.py:Simulator._step", "dhg/visualization/structure/layout.py:force_layout", "dhg/visualization/structure/layout.py:bipartite_force_layout"]}
{"id": "C158", "title": "What the drawing functions refuse", "statement": "The drawing functions raise AssertionError for a structure without edges, for an e_style they do not support (line and circle for graphs, line for directed and bipartite graphs, circle for hypergraphs) and for a list of sizes or line widths whose length is not the number of vertices or edges. An empty list of colours raises IndexError and a colour of another type ValueError.", "quantifier": "all structures, settings, random draws", "why_tests_cant": "All combinations of settings.", "anchors": ["dhg/visualization/structure/draw.py:draw_graph", "dhg/visualization/structure/draw.py:draw_digraph", "dhg/visualization/structure/draw.py:draw_bigraph", "dhg/visualization/structure/draw.py:draw_hypergraph", "dhg/visualization/structure/defaults.py:fill_sizes", "dhg/visualization/structure/defaults.py:fill_color"]}
{"id": "C159", "title": "Drawings with straight lines show every vertex and every edge", "statement": "draw_graph (e_style line) and draw_digraph draw, at the coordinates of the layout, one circle for every vertex with the radius and colour asked for, and every label that is not empty 1.3 radii below its vertex. Every edge is a straight line from the rim of one end to the rim of the other with its own colour and line width, with an arrow head for directed graphs only. A list with fewer colours than edges raises IndexError.", "quantifier": "all graphs, settings, layouts", "why_tests_cant": "All structures and settings; real-valued positions.", "anchors": ["dhg/visualization/structure/draw.py:draw_graph", "dhg/visualization/structure/draw.py:draw_digraph", "dhg/visualization/structure/utils.py:draw_line_edge", "dhg/visualization/structure/utils.py:draw_vertex"]}
{"id": "C160", "title": "Drawings of hyperedges show every hyperedge as an outline", "statement": "Whenever draw_hypergraph (or draw_graph with e_style circle) returns, it has drawn the vertices as in C159 and, for every hyperedge, an outline that goes around its vertices at the distance given by the smaller hyperedges drawn before it, with its own edge colour, fill colour and line width.", "quantifier": "all hypergraphs, settings, layouts, convex hulls", "why_tests_cant": "All structures and settings; real-valued positions.", "anchors": ["dhg/visualization/structure/draw.py:draw_hypergraph", "dhg/visualization/structure/draw.py:draw_graph", "dhg/visualization/structure/utils.py:draw_circle_edge", "dhg/visualization/structure/utils.py:hull_layout"]}
{"id": "C161", "title": "Drawings of bipartite graphs", "statement": "draw_bigraph draws the vertices of U and then those of V as circles at the coordinates of the layout, with the radius and colour of their side, and edge (u,v) as a straight line between the rims of vertex u of U and vertex v of V. With labels for both sides every label that is not empty is written below its vertex.", "quantifier": "all bipartite graphs, settings, layouts", "why_tests_cant": "All structures and settings; real-valued positions.", "anchors": ["dhg/visualization/structure/draw.py:draw_bigraph", "dhg/visualization/structure/defaults.py:default_bipartite_size"]}
{"id": "C162", "title": "Defect: labels, fonts and colours of draw_bigraph and draw_hypergraph", "statement": "Labels given for only one side of a bipartite graph are not written. With a list of fewer colours than vertices in U, the first vertex of U without a colour gets the colour of the first vertex of V. The font size is the sum of both font sizes (C161_bigraph). draw_hypergraph ignores font_size.", "quantifier": "all bipartite graphs and hypergraphs, settings", "why_tests_cant": "All settings.", "anchors": ["dhg/visualization/structure/draw.py:draw_bigraph", "dhg/visualization/structure/draw.py:draw_hypergraph"]}
{"id": "C163", "title": "The whole force layout", "statement": "If no two vertices (nor the middles of two edges, if edges push each other) ever meet, force_layout returns exactly this: starting from the random draws scaled to the square from -5 to 5 (bipartite graphs: U around (5,0), V around (-5,0), to 4.5 on each side), the steps of C157 are repeated with a damping that shrinks by one thousandth each time, at most 400 times and until the vertices hardly move; then each axis is mapped linearly so that the extreme vertices are at 0.1 and 0.9 (nan if an axis has no extent). Two vertices joined by an edge end in opposite corners.", "quantifier": "all edges, strengths, random draws and jitters", "why_tests_cant": "All random initialisations; hundreds of iterated real-valued steps.", "anchors": ["dhg/visualization/structure/layout.py:force_layout", "dhg/visualization/structure/layout.py:bipartite_force_layout", "dhg/visualization/structure/simulator.py:Simulator.simulate", "dhg/visualization/structure/utils.py:init_pos"]}
{"id": "C164", "title": "Dropping connections in message passing", "statement": "With a drop_rate above 0, smoothing_with_GCN, smoothing_with_HGNN and the sum and mean aggregations (and the sum with user weights) of Graph, DiGraph, BiGraph and Hypergraph give the result of drop_rate 0 with some connections taken out. Every connection has a draw of its own and the connections that are kept count as much as before (the mean still divides by the full degree). With every connection dropped the result is 0; with none dropped it is the result without dropping.", "quantifier": "all reachable structures, features, draws", "why_tests_cant": "Random draws; every subset of the connections.", "anchors": ["dhg/structure/graphs/graph.py:Graph.v2v", "dhg/structure/graphs/graph.py:Graph.smoothing_with_GCN", "dhg/structure/graphs/directed_graph.py:DiGraph.v2v", "dhg/structure/graphs/bipartite_graph.py:BiGraph.u2v", "dhg/structure/graphs/bipartite_graph.py:BiGraph.v2u", "dhg/structure/hypergraphs/hypergraph.py:Hypergraph.v2e_aggregation", "dhg/structure/hypergraphs/hypergraph.py:Hypergraph.e2v_aggregation", "dhg/structure/hypergraphs/hypergraph.py:Hypergraph.smoothing_with_HGNN", "dhg/utils/sparse.py:sparse_dropout"]}
{"id": "C165", "title": "Laplacian smoothing", "statement": "Graph.smoothing(X, L, lamb) with the Laplacian L of the graph gives x_i + lamb * (sum over the edges at i of weight * (x_i - x_j)). The sum of a feature over all vertices does not change, constant features do not change, and lamb = 0 changes nothing.", "quantifier": "all reachable graphs, features, strengths", "why_tests_cant": "All graphs and real-valued features.", "anchors": ["dhg/structure/base.py:BaseGraph.smoothing", "dhg/structure/graphs/graph.py:Graph.L"]}
{"id": "C166", "title": "Defect: softmax aggregation keeps dropped connections", "statement": "With softmax_then_sum a dropped connection is not removed: it takes part in the softmax with the score 0. The coefficients of a receiver still sum to 1, and a receiver with a single connection gets the full value of that sender even if the connection is dropped.", "quantifier": "all reachable structures, features, scores, draws", "why_tests_cant": "Random draws; every subset of the connections.", "anchors": ["dhg/structure/graphs/graph.py:Graph.v2v", "dhg/structure/graphs/graph.py:Graph.smoothing_with_GCN", "dhg/structure/graphs/directed_graph.py:DiGraph.v2v", "dhg/structure/graphs/bipartite_graph.py:BiGraph.u2v", "dhg/structure/graphs/bipartite_graph.py:BiGraph.v2u", "dhg/structure/hypergraphs/hypergraph.py:Hypergraph.v2e_aggregation", "dhg/structure/hypergraphs/hypergraph.py:Hypergraph.e2v_aggregation", "dhg/structure/hypergraphs/hypergraph.py:Hypergraph.smoothing_with_HGNN", "dhg/utils/sparse.py:sparse_dropout"]}
{"id": "C167", "title": "Defect: Laplacian smoothing makes adjacent features differ more", "statement": "For a non-negative strength lamb and non-negative weights, Graph.smoothing with the Laplacian L of the graph never reduces the sum over the edges of weight * (difference of the features)^2, and increases it whenever any feature changes. Two adjacent vertices with features 0 and 1 get -1 and 2 for strength 1.", "quantifier": "all reachable graphs with non-negative weights, features, strengths", "why_tests_cant": "All graphs and real-valued features.", "anchors": ["dhg/structure/base.py:BaseGraph.smoothing", "dhg/structure/graphs/graph.py:Graph.smoothing"]}
{"id": "C168", "title": "Settings of an evaluator reach the metric", "statement": "validate() of an evaluator computes the configured metric with the configured settings k, ratio, method, n_points or average, and with the documented default for every setting that is not given.", "quantifier": "all metrics, settings, data", "why_tests_cant": "All settings and data; a test covers some.", "anchors": ["dhg/metrics/base.py:format_metric_configs", "dhg/metrics/base.py:BaseEvaluator.validate"]}
{"id": "C169", "title": "Defect: a hypergraph with the same hyperedge in two groups cannot be drawn", "statement": "hg.e lists the hyperedges of all groups one after the other, so a hyperedge that two groups hold occurs twice. draw_hypergraph then fails with AssertionError whenever some vertex lies outside that hyperedge, whatever the random start: the two copies have the same middle, their push is infinite, and 0 times infinity in the product with the incidence matrix is nan. (In exact arithmetic; rounding in euclidean_distances may give a tiny distance instead of 0.)", "quantifier": "all hypergraphs, groups, styles, random starts", "why_tests_cant": "All hypergraphs and random starts; a test draws one.", "anchors": ["dhg/visualization/structure/draw.py:draw_hypergraph", "dhg/visualization/structure/layout.py:force_layout", "dhg/visualization/structure/simulator.py:Simulator.simulate", "dhg/structure/hypergraphs/hypergraph.py:Hypergraph.e"]}
{"id": "C170", "title": "Vertices at the same place leave each other", "statement": "When two vertices of a graph or digraph are at the same place during the layout and no other vertices are, one step of the simulation still succeeds: each of the two jumps 0.2 along each axis in the direction of its own random draw, all other vertices move as if nothing happened, and the simulation does not stop. With three vertices at the same place the step fails with AssertionError if two of the draws of one vertex point in opposite directions along an axis.", "quantifier": "all graphs, positions, strengths, draws", "why_tests_cant": "All positions and draws; random starts almost never coincide in a test.", "anchors": ["dhg/visualization/structure/simulator.py:Simulator.simulate", "dhg/visualization/structure/utils.py:safe_div"]}
{"id": "C171", "title": "The weight matrices R_v2e and R_e2v can never be computed", "statement": "On every Hypergraph reached through the public methods, R_v2e, R_e2v, R_v2e_of_group(g) and R_e2v_of_group(g) raise: KeyError for a group with hyperedges (the stored content has only the key w_e), TypeError for a group without any (vstack of lists), AssertionError for a group that does not exist, RuntimeError for the whole hypergraph without groups. The hypergraph is unchanged.", "quantifier": "for every construction, every sequence of operations, every group name and both directions", "why_tests_cant": "a test sees the exception for its own hypergraph; that no hypergraph and no history of operations lets the call succeed is a statement about all reachable states", "anchors": ["dhg/structure/base.py:568-591", "dhg/structure/base.py:958-997", "dhg/structure/hypergraphs/hypergraph.py:340-350"]}
{"id": "C172", "title": "Self-loop methods that BiGraph inherits invent edges between unrelated vertices", "statement": "BiGraph inherits add_extra_selfloop. After it the edge list of a bipartite graph has, after its own edges, an edge (v, v) of weight 1 for every v < num_v, which joins vertex v of U with vertex v of V; num_e grows by num_v. If num_v <= num_u the matrix B gains 1 at the entries (v, v); if num_u < num_v reading B raises RuntimeError. remove_extra_selfloop and remove_selfloop take the edges away again. A clone made after the edges have been read lists the invented edges and does not count them in num_e; a clone made before neither lists nor counts them.", "quantifier": "for every bipartite graph reached by any sequence of operations, over every commutative ring of weights", "why_tests_cant": "the effect depends on num_u, num_v, the stored edges and on what was read before the clone; a test fixes all of them", "anchors": ["dhg/structure/base.py:242-291", "dhg/structure/graphs/bipartite_graph.py:162-169", "dhg/structure/graphs/bipartite_graph.py:481-495"]}
{"id": "C173", "title": "Defect: UniGCN gives nan to the vertices of a hyperedge of weight zero", "statement": "UniGCNConv divides the sum of the degrees of the vertices of a hyperedge by the number of those that are not 0. With non-negative weights the output of a vertex (before the activation) is nan in every channel if the vertex lies in a hyperedge all of whose vertices have degree 0 (for example a hyperedge of weight 0 that meets no other). If it lies in no such hyperedge, the output is 1/sqrt(d_v) times the sum over its hyperedges of 1/sqrt(d_e) times the hyperedge feature, with d_e the average over the vertices of degree other than 0, which is not the documented average over all vertices.", "quantifier": "for every reachable hypergraph with non-negative weights, every linear map, all features, every vertex and channel", "why_tests_cant": "nan appears only for particular weights; the claim says exactly for which vertices of which hypergraphs it does", "anchors": ["dhg/nn/convs/hypergraphs/unignn_conv.py:52-80"]}
{"id": "C174", "title": "Defect: a hypergraph with an empty hyperedge can be built but not drawn", "statement": "Hypergraph accepts a hyperedge without vertices and lists it. draw_hypergraph of such a hypergraph raises ValueError (the middle of no vertices is nan and is refused in the first step of the layout), whatever the other hyperedges, styles and random draws are.", "quantifier": "for every list of hyperedges with vertices in range that contains an empty one, all drawing options that are otherwise accepted, all random draws", "why_tests_cant": "the layout is random and iterated; the claim is that no run gets past the first step", "anchors": ["dhg/visualization/structure/simulator.py:51-60", "dhg/visualization/structure/draw.py:draw_hypergraph"]}
{"id": "C175", "title": "Vertex relabelling equivariance of directed and bipartite graphs", "statement": "Renaming the vertices of a DiGraph by a permutation, or the two sides of a BiGraph by two independent permutations (in the constructor call and every later call, or in any other history with the same content up to the renaming), and permuting the feature rows accordingly permutes A, its transpose, in and out degrees and v2v in both directions of the DiGraph, and B, A, L_GCN, both degree vectors, u2v, v2u and GCN smoothing of the BiGraph, and changes nothing else. Renaming every call of a history gives such a history: no renamed call is refused that was accepted.", "quantifier": "every reachable DiGraph (reverse_direction not called on cached data, see C77) and BiGraph, every permutation of the vertices, every feature matrix", "why_tests_cant": "Factorially many permutations and unboundedly many histories.", "anchors": ["dhg/structure/graphs/directed_graph.py:DiGraph.v2v", "dhg/structure/graphs/bipartite_graph.py:BiGraph.u2v", "dhg/structure/graphs/bipartite_graph.py:BiGraph.v2u", "dhg/structure/graphs/bipartite_graph.py:BiGraph.L_GCN"]}
{"id": "C176", "title": "Which hypergraphs can be built", "statement": "Hypergraph(num_v, e_list, e_weight, v_weight, merge_op) succeeds exactly when num_v is positive, v_weight (if given) has one number per vertex, a list e_weight has one number per hyperedge, and merge_op is mean, sum or max or no two hyperedges have the same vertices; in every other case it raises AssertionError.", "quantifier": "all numbers of vertices, hyperedge lists, weights and merge operators", "why_tests_cant": "all argument combinations, unboundedly many hyperedges", "anchors": ["dhg/structure/hypergraphs/hypergraph.py:Hypergraph.__init__", "dhg/structure/base.py:BaseHypergraph._add_hyperedge"]}
{"id": "C177", "title": "add_hyperedges_from_bigraph does not default as documented", "statement": "The documentation of Hypergraph.add_hyperedges_from_bigraph says U_as_vertex defaults to True, as it does in Hypergraph.from_bigraph. It defaults to False: for every bipartite graph whose sides differ in size, from_bigraph(b) succeeds, and adding b to the result by default raises AssertionError and changes nothing, while U_as_vertex=True succeeds; a hypergraph on as many vertices as V accepts b by default and gets, in a new group, the hyperedges of from_bigraph(b, U_as_vertex=False). With sides of equal size the wrong hyperedges are added silently.", "quantifier": "all bipartite graphs after any history of calls, all hypergraphs after any history of calls", "why_tests_cant": "unboundedly many graphs and histories", "anchors": ["dhg/structure/hypergraphs/hypergraph.py:Hypergraph.add_hyperedges_from_bigraph", "dhg/structure/hypergraphs/hypergraph.py:Hypergraph.from_bigraph"]}
{"id": "C178", "title": "Splits when the number of vertices is not the number of labels", "statement": "With num_v smaller than the number of labels (0..k-1 or 1..k), split_by_num and split_by_ratio without a test size raise IndexError for every shuffle. With num_v larger, split_by_num succeeds: the masks have num_v entries, the vertices without a label are in none of them, and without a test size every labelled vertex is in one of them.", "quantifier": "every label vector, every shuffle, every size and ratio", "why_tests_cant": "All shuffles and label vectors.", "anchors": ["dhg/utils/dataset_split.py:split_by_num", "dhg/utils/dataset_split.py:split_by_ratio", "dhg/utils/dataset_split.py:_idx2mask"]}
{"id": "C179", "title": "Defect: negative degrees turn normalised matrices and smoothings into nan", "statement": "Weights may be negative. On a Graph, D_v_neg_1_2 is nan at every vertex of negative degree; an entry of L_GCN (degrees with one extra self-loop) or an off-diagonal entry of L_sym (degrees without self-loops) is nan exactly where an edge has an end of negative degree; smoothing_with_GCN gives nan to every vertex that is, or is a neighbour of, a vertex of negative degree. On a Hypergraph, smoothing_with_HGNN gives nan to every vertex that shares a hyperedge with a vertex of negative degree. All other entries and outputs are the published values.", "quantifier": "every reachable Graph and every scope of every reachable Hypergraph, every feature column", "why_tests_cant": "All weights and structures; tests use positive weights.", "anchors": ["dhg/structure/graphs/graph.py:D_v_neg_1_2", "dhg/structure/graphs/graph.py:L_GCN", "dhg/structure/graphs/graph.py:L_sym", "dhg/structure/graphs/graph.py:smoothing_with_GCN", "dhg/structure/hypergraphs/hypergraph.py:L_HGNN", "dhg/structure/hypergraphs/hypergraph.py:smoothing_with_HGNN"]}
{"id": "C180", "title": "Defect: integer weights make D_v_neg_1, v2v, L_sym and L_rw raise", "statement": "Graph(n, edges, weights) and DiGraph(n, edges, weights) with Python integers as weights build the same graph as with the same numbers written as floats, and D_v, D_v_neg_1_2, L and L_GCN agree; but D_v_neg_1 (D_v_in_neg_1, D_v_out_neg_1) and v2v with float features raise RuntimeError exactly when the graph has an edge, no extra self-loops and, if duplicates are merged by 'mean', no edge was written twice; L_sym and L_rw raise under the same condition on the edges that are not self-loops, whatever the extra self-loops. BiGraph(n_u, n_v, edges, weights) likewise: D_u and D_v agree, but D_u_neg_1, D_v_neg_1, u2v and v2u raise RuntimeError exactly when no edge was written twice or duplicates are not merged by 'mean'.", "quantifier": "every number of vertices, non-empty edge list, list of integer weights, merge operation and choice of extra self-loops; every feature column", "why_tests_cant": "All edge lists and weights; the dtype of the matrix depends on the whole history of merges, and tests pass floats.", "anchors": ["dhg/structure/graphs/graph.py:A", "dhg/structure/graphs/graph.py:D_v_neg_1", "dhg/structure/graphs/graph.py:L_sym", "dhg/structure/graphs/graph.py:L_rw", "dhg/structure/graphs/graph.py:v2v", "dhg/structure/graphs/directed_graph.py:A", "dhg/structure/graphs/directed_graph.py:D_v_in_neg_1", "dhg/structure/graphs/directed_graph.py:v2v", "dhg/structure/graphs/bipartite_graph.py:B", "dhg/structure/graphs/bipartite_graph.py:D_u_neg_1", "dhg/structure/graphs/bipartite_graph.py:u2v", "dhg/structure/graphs/bipartite_graph.py:v2u"]}
{"id": "C181", "title": "Defect: integer hyperedge weights make L_HGNN, L_sym, L_rw, smoothing_with_HGNN, v2e and v2v raise", "statement": "Hypergraph(n, e_list, e_weight) with Python integers as hyperedge weights builds the same hypergraph as with the same numbers written as floats, and D_v, D_v_neg_1, D_v_neg_1_2, D_e and D_e_neg_1 agree; but L_HGNN, L_sym, L_rw, smoothing_with_HGNN, v2e_update, v2e and v2v (without their own e_weight), of the hypergraph and of the group 'main', raise RuntimeError exactly when duplicates are not merged by 'mean' or no hyperedge was written twice in whatever order of its vertices; otherwise they give the answers of the float hypergraph.", "quantifier": "every number of vertices, non-empty list of hyperedges, list of integer weights, vertex weights and merge operation; every feature column", "why_tests_cant": "All hyperedge lists and weights; the dtype of W_e depends on every merge, and tests pass floats.", "anchors": ["dhg/structure/base.py:_fetch_W_of_group", "dhg/structure/hypergraphs/hypergraph.py:W_e", "dhg/structure/hypergraphs/hypergraph.py:L_HGNN", "dhg/structure/hypergraphs/hypergraph.py:L_sym", "dhg/structure/hypergraphs/hypergraph.py:L_rw", "dhg/structure/hypergraphs/hypergraph.py:v2e_update", "dhg/structure/hypergraphs/hypergraph.py:v2v"]}
{"id": "C182", "title": "Outlines of hyperedges exist exactly when no circle swallows the next one", "statement": "draw_hypergraph, and draw_graph with e_style 'circle', find an outline for every edge if around consecutive corners of each edge (both vertices of a two-vertex edge, otherwise the corners of the convex hull) neither circle contains the other one, the circle of a vertex having radius size*(1.3+0.3*j) when j drawn edges contained it before. In particular the drawing succeeds if the vertices of every edge lie apart by the largest of their circles minus the smallest. If one circle contains the next one, no outline is found: ValueError when every edge has its hull.", "quantifier": "every list of edges, positions, sizes, drawing order, convex hull oracle with indices in range; every accepted setting of colours, sizes and labels", "why_tests_cant": "All layouts (positions are real numbers from a randomised simulation) and all edge lists; tests draw a few fixed graphs.", "anchors": ["dhg/visualization/structure/utils.py:hull_layout", "dhg/visualization/structure/geometry.py:common_tangent_radian", "dhg/visualization/structure/utils.py:draw_circle_edge", "dhg/visualization/structure/draw.py:draw_hypergraph", "dhg/visualization/structure/draw.py:draw_graph"]}
{"id": "C183", "title": "Defect: draw_graph with e_style 'circle' cannot draw a graph with a large hub", "statement": "draw_graph(g, e_style='circle') raises ValueError (math domain error of acos), whatever the layout, whenever some vertex v has an edge and r_v*(1+0.3*deg v) - r_w*(1+0.3*deg w) exceeds the diagonal 0.8*sqrt(2) of the layout for every neighbour w, r being the drawn sizes of the vertices; with default sizes this is the case for every star with at least 1436 leaves.", "quantifier": "every graph, setting of sizes, colours and labels, random draws, finite layout, sorting order of the edges and convex hull oracle", "why_tests_cant": "All layouts of a randomised simulation; large stars and unequal sizes are not drawn in tests.", "anchors": ["dhg/visualization/structure/draw.py:draw_graph", "dhg/visualization/structure/utils.py:hull_layout", "dhg/visualization/structure/geometry.py:common_tangent_radian", "dhg/visualization/structure/defaults.py:default_size"]}
{"id": "C184", "title": "Ready-made networks do not depend on the names of the vertices", "statement": "If two structures are the same up to a permutation p of the vertices (hyperedges in any order) and the rows of the second feature matrix are the rows of the first one moved by p, then GCN, GraphSAGE, GIN and GAT on graphs, and HGNN, HGNN+, HNHN, UniSAGE, UniGIN, UniGCN and UniGAT on hypergraphs, with any parameters of fitting sizes, return the same rows moved by p. Batch normalisation may be in training or in evaluation mode: normalising every channel by statistics that do not depend on the order of the rows keeps this property.", "quantifier": "every reachable pair of structures, permutation, number of layers and heads, parameters, activation functions, feature matrices; normalisation and dropout functions that respect permutations of the rows; GAT and UniGAT for structures with other than one incidence", "why_tests_cant": "All structures, permutations, parameters and features; numerical tests fix one seed and one order of vertices.", "anchors": ["dhg/models/graphs/gcn.py:GCN.forward", "dhg/models/graphs/graphsage.py:GraphSAGE.forward", "dhg/models/graphs/gin.py:GIN.forward", "dhg/models/graphs/gat.py:GAT.forward", "dhg/models/hypergraphs/hgnn.py:HGNN.forward", "dhg/models/hypergraphs/hgnnp.py:HGNNP.forward", "dhg/models/hypergraphs/hnhn.py:HNHN.forward", "dhg/models/hypergraphs/unignn.py:UniGCN.forward", "dhg/models/hypergraphs/unignn.py:UniGAT.forward", "dhg/models/hypergraphs/unignn.py:UniSAGE.forward", "dhg/models/hypergraphs/unignn.py:UniGIN.forward"]}
{"id": "C185", "title": "Recommenders do not depend on the numbering of users and items", "statement": "LightGCN and NGCF on two bipartite graphs that are the same up to permutations of the users and of the items, and DHCF on two such pairs of hypergraphs, return for embeddings moved accordingly the same user and item embeddings moved by the two permutations.", "quantifier": "every reachable pair of structures, permutations of the two sides, number of layers, parameters and embeddings", "why_tests_cant": "All structures, permutations, parameters and embeddings.", "anchors": ["dhg/models/graphs/lightgcn.py:LightGCN.forward", "dhg/models/graphs/ngcf.py:NGCF.forward", "dhg/models/hypergraphs/dhcf.py:DHCF.forward"]}
{"id": "C186", "title": "Reported value of a recommendation task", "statement": "When RecommenderTask.run has found a best model, best_trial.value is the evaluator's validation metric over all users of the loader, for the scores <emb_u[u], emb_i[j]> + mask of best_model on best_structure: it does not depend on how the users are batched or in which order they come, nor on what the evaluator saw in earlier epochs. No complete trial reported a larger value.", "quantifier": "every model, loader, batching, configuration of metrics, sequence of trials and epochs", "why_tests_cant": "All batchings and all histories of the evaluator.", "anchors": ["dhg/experiments/recommender.py:RecommenderTask.validate", "dhg/experiments/base.py:BaseTask.run", "dhg/experiments/base.py:BaseTask.experiment"]}
{"id": "C187", "title": "Items seen in training rank last", "statement": "With the masks of UserItemDataset in test mode, a user's ranking lists all items outside the user's training items first, by descending inner product, and the training items after them; so precision@k (k at most the number of unseen items) is the fraction of the k best unseen items that the test set holds.", "quantifier": "every embedding, user, training and test set, every tie-breaking of the sort", "why_tests_cant": "All real embeddings and all tie-breakings.", "anchors": ["dhg/experiments/recommender.py:RecommenderTask.validate", "dhg/experiments/recommender.py:RecommenderTask.test", "dhg/utils/dataset_wrapers.py:UserItemDataset.__getitem__", "dhg/metrics/recommender.py:precision"]}
{"id": "C188", "title": "Defect: the search of a recommendation task is validated on the test set", "statement": "RecommenderTask.validate iterates data['test_loader']; therefore the final test result of the validation metric equals best_trial.value, the number that was maximised over all epochs and trials. There is no held-out evaluation.", "quantifier": "every model, loader, batching, sequence of trials and epochs", "why_tests_cant": "Equality for all runs.", "anchors": ["dhg/experiments/recommender.py:RecommenderTask.validate", "dhg/experiments/recommender.py:RecommenderTask.test", "dhg/experiments/base.py:BaseTask.run"]}
{"id": "C189", "title": "Labels outside the masks have no influence on vertex classification", "statement": "Two vertex classification tasks whose labels agree on train_mask and val_mask give the same study, the same cached files, the same best model, structure and value; test looks only at the labels of test_mask.", "quantifier": "every model, data, sequence of trials and epochs", "why_tests_cant": "A noninterference property of pairs of runs.", "anchors": ["dhg/experiments/vertex_classification.py:VertexClassificationTask.train", "dhg/experiments/vertex_classification.py:VertexClassificationTask.validate", "dhg/experiments/vertex_classification.py:VertexClassificationTask.test", "dhg/experiments/base.py:BaseTask.run"]}
{"id": "C190", "title": "Reported value of a vertex classification task", "statement": "best_trial.value is the validation metric of best_model on best_structure over the vertices of val_mask; for accuracy it is the fraction of these vertices whose highest score is that of their label, and the test returns this fraction for test_mask under 'accuracy'. No complete trial reported a larger value.", "quantifier": "every model, data, masks, sequence of trials and epochs", "why_tests_cant": "All runs and masks.", "anchors": ["dhg/experiments/vertex_classification.py:VertexClassificationTask.validate", "dhg/experiments/vertex_classification.py:VertexClassificationTask.test", "dhg/experiments/base.py:BaseTask.experiment", "dhg/experiments/base.py:BaseTask.run"]}
{"id": "C191", "title": "Defect: recommendation tasks cannot be tested away from the CPU", "statement": "RecommenderTask.test does not move the mask to the device (validate does): on any device other than the CPU, run completes the whole search and then raises RuntimeError.", "quantifier": "every model, loader, sequence of trials and epochs", "why_tests_cant": "CI has no accelerator; all runs.", "anchors": ["dhg/experiments/recommender.py:RecommenderTask.test", "dhg/experiments/recommender.py:RecommenderTask.validate"]}
{"id": "C192", "title": "What the returned model was trained on", "statement": "The best_model of a successful search is the model that model_builder makes from the parameters of a recorded trial, after exactly e epochs (1 <= e <= max_epoch) where the e-th value that this trial reported is best_trial.value. In vertex classification an epoch is one optimizer step with the labels of train_mask, followed by the scheduler; in recommendation it is one step per batch of consecutive passes over the training loader, in order, followed by the scheduler. best_structure is the structure built for the same trial (or the given one).", "quantifier": "every model, optimizer, scheduler, loader, sampler, pruner, number of trials and epochs", "why_tests_cant": "All training steps, all histories of trials and prunings.", "anchors": ["dhg/experiments/base.py:BaseTask.experiment", "dhg/experiments/base.py:BaseTask.run", "dhg/experiments/vertex_classification.py:VertexClassificationTask.train", "dhg/experiments/recommender.py:RecommenderTask.train"]}
{"id": "C193", "title": "A task keeps to its study directory", "statement": "Creating a task with a study name of one component makes work_root/study_name with an empty cache directory and a log file that holds the two opening lines. With overwrite=True nothing else remains below that directory; with overwrite=False everything that was there remains and the lines are appended. Everything outside (other studies, other files) stays as it was, except for work_root itself, which is made if its parent exists, and for log files that are still open (C196). The creation succeeds whenever there is a place for the directory.", "quantifier": "every directory tree, set of open log files, work_root and name", "why_tests_cant": "All directory trees and histories of tasks.", "anchors": ["dhg/experiments/base.py:BaseTask.__init__"]}
{"id": "C194", "title": "Missing work_root", "statement": "Creating a task raises ValueError exactly when neither work_root nor its parent directory exists, and then nothing on the disk has changed.", "quantifier": "every directory tree, work_root, name and overwrite flag", "why_tests_cant": "All directory trees; the directory of an old study is removed before the check.", "anchors": ["dhg/experiments/base.py:BaseTask.__init__"]}
{"id": "C195", "title": "Defect: a study name can remove all studies", "statement": "The study name is joined as a path and the result is removed when overwrite is True (the default): with an empty name, or '.', the directory is work_root itself and all studies and files in it are deleted; an absolute name ignores work_root, and whatever is below that path is deleted.", "quantifier": "every directory tree, work_root and such name", "why_tests_cant": "Destructive; all trees.", "anchors": ["dhg/experiments/base.py:BaseTask.__init__"]}
{"id": "C196", "title": "Defect: log files of earlier tasks go on receiving lines", "statement": "Every task adds a file handler to the process-wide logger 'optuna' and none is ever removed: the log file of a task receives every line that any later task (or optuna) logs, as long as it is not removed by a later task with overwrite. A study that is opened n more times with overwrite=False gets every line n+1 times.", "quantifier": "every history of tasks and log messages in a process", "why_tests_cant": "All histories of a process.", "anchors": ["dhg/experiments/base.py:BaseTask.__init__", "dhg/experiments/base.py:BaseTask.run"]}
{"id": "C197", "title": "Defect: a classification task with a confusion matrix ends in TypeError", "statement": "VertexClassificationEvaluator accepts 'confusion_matrix' as a metric. When the search and the final test of a vertex classification task have both succeeded, run() raises TypeError, while it prints the results, exactly when some metric configuration asks for the confusion matrix (by name or with parameters); otherwise it returns normally.", "quantifier": "every data set, model, list of metric configurations, validation index, number of trials and epochs, sampler and pruner", "why_tests_cant": "All configurations and searches; the failure comes only after the whole search.", "anchors": ["dhg/experiments/base.py:BaseTask.run", "dhg/metrics/classification.py:confusion_matrix", "dhg/experiments/vertex_classification.py:VertexClassificationTask.test"]}
{"id": "C198", "title": "Defect: numbers of neighbours that DiGraph.from_feature_kNN refuses", "statement": "from_feature_kNN(X, k) raises AssertionError for k > N. It raises IndexError when a single point is requested (k=1 with include_center, k=0 without). k = N without include_center passes the documented check but then fails with the AssertionError of add_edges, because N+1 points are requested and scipy fills up with the index N.", "quantifier": "every N, k, neighbour oracle, weighting, centre flag and direction", "why_tests_cant": "All sizes and feature matrices.", "anchors": ["dhg/structure/graphs/directed_graph.py:DiGraph.from_feature_kNN"]}
{"id": "C199", "title": "Defect: from_feature_kNN with points that coincide", "statement": "The first point that the tree lists for a vertex is left out, whichever it is, and the neighbours are exactly the others of the row (and the vertex itself with include_center). When exactly two points coincide, both get the same row: one of the two becomes its own neighbour although include_center is False, and the other one is a neighbour of neither of them. With include_center a vertex that is not listed first gets a self-loop entry of 2.", "quantifier": "every distance matrix, every correct neighbour oracle with any order of ties, k, weighting and direction", "why_tests_cant": "All point sets; depends on ties.", "anchors": ["dhg/structure/graphs/directed_graph.py:DiGraph.from_feature_kNN"]}
{"id": "C200", "title": "Defect: negative training numbers of user-item splits are accepted", "statement": "split_by_num_for_UI_bigraph with train_num = -j does not raise: it takes all but the last j of every user's shuffled items for training and the last j (all, if there are fewer) for testing. split_by_ratio_for_UI_bigraph accepts every ratio: a ratio above 1 leaves empty test lines, and a negative int(n*ratio) counts from the end. In every case each user's items are parted into two disjoint sets and both lists name the same users (for split_by_num with a negative number).", "quantifier": "every reachable bipartite graph, shuffle, negative number, ratio", "why_tests_cant": "All shuffles and graphs.", "anchors": ["dhg/utils/dataset_split.py:split_by_num_for_UI_bigraph", "dhg/utils/dataset_split.py:split_by_ratio_for_UI_bigraph"]}
