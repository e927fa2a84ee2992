{"id": "C01", "title": "is_dag decides acyclicity", "statement": "For a square adjacency matrix with non-negative integer entries, is_dag(A) returns True exactly when the graph with an edge i->j whenever A[i,j]!=0 has no directed cycle (self-loops and i-j pairs count as cycles). It always returns: it neither raises nor loops.", "quantifier": "every size p, every non-negative integer p x p matrix, every iteration order of Python sets", "why_tests_cant": "the number of graphs on p nodes grows as 2^(p^2), and the set iteration order inside the loop is not controlled by a test", "anchors": ["utlvce/utils.py:is_dag", "utlvce/utils.py:topological_ordering", "utlvce/utils.py:only_undirected"]}
{"id": "C02", "title": "topological_ordering is sound and complete", "statement": "For a non-negative adjacency matrix, topological_ordering(A) returns a list that contains every node exactly once and in which i comes before j for every edge i->j; it raises ValueError exactly when the graph has a directed cycle; it terminates on every integer matrix, including ones with negative weights, and does not modify its argument.", "quantifier": "every size, every matrix, every set iteration order", "why_tests_cant": "correctness depends on a loop invariant over graphs of unbounded size and on every possible order in which children are visited", "anchors": ["utlvce/utils.py:topological_ordering"]}
{"id": "C03", "title": "is_dag on signed weight matrices", "statement": "is_dag(A) returns True exactly when the graph of non-zero entries is acyclic, also when A is a weight matrix with negative entries (the docstring only asks for A[i,j]!=0 => i->j).", "quantifier": "every integer matrix, of any sign", "why_tests_cant": "example-based tests use 0/1 matrices; the claim ranges over all weights", "anchors": ["utlvce/utils.py:is_dag", "utlvce/utils.py:topological_ordering"]}
{"id": "C04", "title": "node-set queries are exact and partition adjacency", "statement": "neighbors, pa, ch, adj, na return exactly the nodes their docstrings describe: j in neighbors(i) iff i-j, in pa(i) iff j->i, in ch(i) iff i->j, in adj(i) iff any edge joins them; for every i the sets neighbors(i), pa(i), ch(i) are pairwise disjoint and their union is adj(i); pa and ch are converse, neighbors and adj are symmetric; na(y,x) = neighbors(y) & adj(x).", "quantifier": "every matrix, every pair of node indices", "why_tests_cant": "all matrices and indices of every size", "anchors": ["utlvce/utils.py:neighbors", "utlvce/utils.py:adj", "utlvce/utils.py:pa", "utlvce/utils.py:ch", "utlvce/utils.py:na"]}
{"id": "C05", "title": "directed/undirected decomposition and edge lists", "statement": "only_directed(P) and only_undirected(P) keep the original weights, have disjoint supports and sum to P; skeleton(P) is symmetric 0/1 and marks exactly the adjacent pairs when weights do not cancel; undirected_edges lists every undirected edge exactly once as (larger, smaller); directed_edges lists every directed edge exactly once; edge_weights maps exactly the non-zero positions to their weights.", "quantifier": "every square integer matrix (no cancellation A[i,j]+A[j,i]=0 for skeleton)", "why_tests_cant": "all sizes and weights", "anchors": ["utlvce/utils.py:only_directed", "utlvce/utils.py:only_undirected", "utlvce/utils.py:skeleton", "utlvce/utils.py:undirected_edges", "utlvce/utils.py:directed_edges", "utlvce/utils.py:edge_weights"]}
{"id": "C06", "title": "vstructures is exact", "statement": "vstructures(A) contains the triple (i,c,j) iff i<j, i->c, j->c are directed edges of A and i, j are not adjacent; no triple is listed in the other order, and the result does not depend on the set iteration order.", "quantifier": "every (P)DAG adjacency of every size, every set iteration order", "why_tests_cant": "all graphs and all hash orders", "anchors": ["utlvce/utils.py:vstructures"]}
{"id": "C07", "title": "moral_graph and degrees", "statement": "moral_graph(A) is the symmetric 0/1 matrix joining i and j iff they are adjacent in A or have a common child and are non-adjacent; degrees(A)[j] is the number of nodes adjacent to j.", "quantifier": "every adjacency without cancelling weights and self-loops, every iteration order", "why_tests_cant": "all graphs", "anchors": ["utlvce/utils.py:moral_graph", "utlvce/utils.py:degrees", "utlvce/utils.py:skeleton"]}
{"id": "C08", "title": "is_clique and is_complete", "statement": "For a graph without self-loops and without cancelling weights, is_clique(S,A) is True iff every two distinct nodes of S are adjacent in A; is_complete(P) is True iff every two distinct nodes are adjacent.", "quantifier": "every node set S, every matrix, every iteration order of S", "why_tests_cant": "all graphs and all subsets", "anchors": ["utlvce/utils.py:is_clique", "utlvce/utils.py:is_complete"]}
{"id": "C09", "title": "semi_directed_paths enumerates all simple paths once", "statement": "For a graph without self-loops, semi_directed_paths(fro,to,A) terminates and returns exactly the non-repeating node sequences from fro to to in which consecutive nodes are joined by a directed or an undirected edge, each sequence once.", "quantifier": "every graph size, every pair of nodes, every set iteration order", "why_tests_cant": "the number of paths is exponential and the traversal order depends on set ordering", "anchors": ["utlvce/utils.py:semi_directed_paths"]}
{"id": "C10", "title": "separates decides path separation", "statement": "separates(S,A,B,G) raises ValueError iff S, A, B are not pairwise disjoint; otherwise it returns True iff every semi-directed path in G from a node of A to a node of B contains a node of S.", "quantifier": "all graphs without self-loops and all node sets", "why_tests_cant": "quantifies over all paths of all graphs", "anchors": ["utlvce/utils.py:separates", "utlvce/utils.py:semi_directed_paths"]}
{"id": "C11", "title": "chain_component is the connected component", "statement": "chain_component(i,G) terminates and returns exactly the nodes reachable from i along undirected edges of G (including i).", "quantifier": "every graph, node and set iteration order", "why_tests_cant": "reachability in graphs of unbounded size; the loop rebinds the set it iterates over", "anchors": ["utlvce/utils.py:chain_component"]}
{"id": "C12", "title": "induced_subgraph", "statement": "induced_subgraph(S,G) has the shape of G, equals G on S x S and is zero elsewhere; in particular it preserves acyclicity.", "quantifier": "every matrix and node set", "why_tests_cant": "all graphs", "anchors": ["utlvce/utils.py:induced_subgraph"]}
{"id": "C13", "title": "is_consistent_extension decides consistent extensions", "statement": "is_consistent_extension(G,P) raises ValueError iff G is not a DAG; otherwise it is True iff G and P have the same skeleton, the same v-structures, and every directed edge of P has the same direction in G.", "quantifier": "all pairs of non-negative adjacency matrices of equal size", "why_tests_cant": "all pairs of graphs", "anchors": ["utlvce/utils.py:is_consistent_extension"]}
{"id": "C14", "title": "pdag_to_dag is sound", "statement": "If pdag_to_dag(P) returns G then G is a DAG with the skeleton of P, the v-structures of P and every directed edge of P kept (a consistent extension). The directed edges of P keep their weights; the others get weight 1.", "quantifier": "every PDAG of every size without self-loops, with arbitrary weights", "why_tests_cant": "correctness of the Dor-Tarsi elimination over all PDAGs; the repository itself notes that an error in the published algorithm was only found by exhaustive testing", "anchors": ["utlvce/utils.py:pdag_to_dag"]}
{"id": "C15", "title": "pdag_to_dag is complete", "statement": "pdag_to_dag(P) raises ValueError iff P admits no consistent extension; it always terminates.", "quantifier": "every 0/1 PDAG of every size without self-loops", "why_tests_cant": "non-existence of an extension is a statement about all DAGs", "anchors": ["utlvce/utils.py:pdag_to_dag"]}
{"id": "C16", "title": "order_edges produces a valid total order", "statement": "For a DAG G, order_edges(G) terminates and labels the m edges of G with 1..m, each label once, zero elsewhere; edges are labelled by decreasing topological position of the head and, for one head, by increasing topological position of the tail; for a non-DAG it raises ValueError.", "quantifier": "every DAG, every set iteration order", "why_tests_cant": "all DAGs of all sizes", "anchors": ["utlvce/utils.py:order_edges", "utlvce/utils.py:sort"]}
{"id": "C17", "title": "label_edges labels exactly the compelled edges", "statement": "On the output of order_edges(G), label_edges never fails its internal assertion and returns a matrix with label 1 exactly on the edges which have the same direction in every DAG with the skeleton and v-structures of G, -1 on the other edges, and 0 elsewhere.", "quantifier": "every DAG G", "why_tests_cant": "compelledness quantifies over the whole Markov equivalence class, exponentially large", "anchors": ["utlvce/utils.py:label_edges", "utlvce/utils.py:order_edges"]}
{"id": "C18", "title": "dag_to_cpdag returns the CPDAG", "statement": "For a DAG G, dag_to_cpdag(G)[i,j]=1 iff some DAG with the same skeleton and the same v-structures as G contains i->j, and 0 otherwise; for a non-DAG it raises ValueError.", "quantifier": "every DAG of every size", "why_tests_cant": "quantifies over the Markov equivalence class of every DAG", "anchors": ["utlvce/utils.py:dag_to_cpdag"]}
{"id": "C19", "title": "the CPDAG is a canonical representative", "statement": "Two DAGs have the same dag_to_cpdag output iff they have the same skeleton and the same v-structures; the output does not depend on set iteration order.", "quantifier": "all pairs of DAGs of the same size", "why_tests_cant": "quantifies over all pairs of DAGs", "anchors": ["utlvce/utils.py:dag_to_cpdag"]}
{"id": "C20", "title": "pdag_to_cpdag", "statement": "pdag_to_cpdag(P) raises ValueError iff P has no consistent extension, otherwise returns the CPDAG of the Markov equivalence class of all consistent extensions of P (which are all equivalent).", "quantifier": "all PDAGs without self-loops, with non-negative weights", "why_tests_cant": "quantifies over all extensions", "anchors": ["utlvce/utils.py:pdag_to_cpdag"]}
{"id": "C21", "title": "all_dags enumerates exactly the consistent extensions", "statement": "For a 0/1 PDAG without self-loops, and provided it has an undirected edge or is already a DAG, all_dags(P) returns each consistent extension of P exactly once and nothing else; none of its internal assertions fail.", "quantifier": "all 0/1 PDAGs", "why_tests_cant": "exponentially many orientations", "anchors": ["utlvce/utils.py:all_dags", "utlvce/utils.py:cartesian"]}
{"id": "C22", "title": "all_dags only returns DAGs", "statement": "Every matrix returned by all_dags(P) is a DAG, for every 0/1 PDAG P.", "quantifier": "all 0/1 PDAGs", "why_tests_cant": "all graphs", "anchors": ["utlvce/utils.py:all_dags"]}
{"id": "C23", "title": "mec enumerates the Markov equivalence class", "statement": "mec(A) raises ValueError iff A is not a DAG; otherwise it returns exactly the 0/1 adjacencies of the DAGs with the same skeleton and v-structures as A, each once, whatever the value of check_chain.", "quantifier": "all DAGs, both values of check_chain", "why_tests_cant": "the class is exponentially large; agreement of the chain shortcut with the generic path is a statement for every p", "anchors": ["utlvce/utils.py:mec", "utlvce/utils.py:chain_graph_MEC", "utlvce/utils.py:all_dags"]}
{"id": "C24", "title": "chain graph shortcut", "statement": "chain_graph_MEC(p) has exactly p members, which are exactly the DAGs Markov-equivalent to the chain 0->1->...->p-1; is_chain_graph(A) is True iff A is that chain.", "quantifier": "every p", "why_tests_cant": "every p", "anchors": ["utlvce/utils.py:chain_graph", "utlvce/utils.py:is_chain_graph", "utlvce/utils.py:chain_graph_MEC"]}
{"id": "C25", "title": "Meek rules are sound", "statement": "If rule_1, rule_2, rule_3 or rule_4 returns True for an undirected edge i-j of a PDAG P then i->j in every consistent extension of P.", "quantifier": "all PDAGs and all their consistent extensions", "why_tests_cant": "quantifies over all extensions", "anchors": ["utlvce/utils.py:rule_1", "utlvce/utils.py:rule_2", "utlvce/utils.py:rule_3", "utlvce/utils.py:rule_4"]}
{"id": "C26", "title": "maximally_orient", "statement": "maximally_orient(P) raises ValueError iff P has no consistent extension; otherwise it terminates, keeps skeleton and v-structures, only orients undirected edges, has exactly the same consistent extensions as P, and no Meek rule applies to any remaining undirected edge. The edges that remain keep their weights.", "quantifier": "all PDAGs without self-loops, with arbitrary weights", "why_tests_cant": "fixpoint and all extensions", "anchors": ["utlvce/utils.py:maximally_orient", "utlvce/utils.py:undirected_edges"]}
{"id": "C27", "title": "maximally_orient is maximal", "statement": "Every edge left undirected by maximally_orient(P) occurs in both directions among the consistent extensions of P.", "quantifier": "all PDAGs without self-loops that admit a consistent extension, with arbitrary weights", "why_tests_cant": "this is completeness of Meek's rules, a theorem over all PDAGs", "anchors": ["utlvce/utils.py:maximally_orient", "utlvce/utils.py:rule_4"]}
{"id": "C28", "title": "dag_to_icpdag represents the I-Markov equivalence class", "statement": "For a DAG G and targets I, dag_to_icpdag(G,I) never fails its assertion, and the consistent extensions of its result are exactly the DAGs D with the skeleton and v-structures of G in which every target in I has the same parents as in G.", "quantifier": "all DAGs, all target sets, all set iteration orders", "why_tests_cant": "quantifies over the equivalence class", "anchors": ["utlvce/utils.py:dag_to_icpdag", "utlvce/utils.py:maximally_orient"]}
{"id": "C29", "title": "imec enumerates the I-Markov equivalence class", "statement": "imec(A,I) raises ValueError iff A is not a DAG or I is not a subset of the nodes; otherwise it returns exactly the 0/1 DAGs Markov-equivalent to A with the same parents as A for every target, each once, whatever check_chain is; imec(A, {}) = mec(A) and imec(A, all nodes) = [A].", "quantifier": "all DAGs and target sets", "why_tests_cant": "exponentially large classes", "anchors": ["utlvce/utils.py:imec", "utlvce/utils.py:chain_graph_IMEC", "utlvce/utils.py:dag_to_icpdag", "utlvce/utils.py:all_dags"]}
{"id": "C30", "title": "pdag_to_icpdag", "statement": "pdag_to_icpdag(P,I) raises ValueError iff some target has an undirected edge in P or P has no consistent extension; otherwise it returns the I-CPDAG of a consistent extension of P, and the I-Markov equivalence class it represents contains every consistent extension of P.", "quantifier": "all PDAGs without self-loops, with non-negative weights, and target sets", "why_tests_cant": "quantifies over extensions", "anchors": ["utlvce/utils.py:pdag_to_icpdag"]}
{"id": "C31", "title": "is_supergraph, has_subgraph, has_supergraph", "statement": "For 0/1 adjacencies is_supergraph(sup,A) is True iff every edge of A is an edge of sup; it is a partial order on 0/1 matrices; has_subgraph(L1,L2) iff every member of L1 has a subgraph in L2, has_supergraph(L1,L2) iff every member of L1 has a supergraph in L2.", "quantifier": "all 0/1 matrices and lists of them", "why_tests_cant": "all graphs", "anchors": ["utlvce/utils.py:is_supergraph", "utlvce/utils.py:has_subgraph", "utlvce/utils.py:has_supergraph"]}
{"id": "C32", "title": "remove_edges", "statement": "remove_edges(A,k) raises ValueError iff A has fewer than k directed edges; otherwise the result is a 0/1 subgraph of A with exactly k directed edges fewer, whatever the random state; it is a DAG if A is.", "quantifier": "all adjacencies, all k, every outcome of the random generator", "why_tests_cant": "the random draw ranges over all subsets of the edges", "anchors": ["utlvce/utils.py:remove_edges"]}
{"id": "C33", "title": "add_edges", "statement": "For a DAG A, add_edges(A,k) raises ValueError iff k > p(p-1)/2 - #edges; otherwise it returns a DAG that contains A and has exactly k more edges, whatever the random shuffle; its final assertion never fails.", "quantifier": "all DAGs, all k, all shuffles", "why_tests_cant": "that the greedy pass always reaches k edges is a statement about every permutation of the candidate edges", "anchors": ["utlvce/utils.py:add_edges"]}
{"id": "C34", "title": "subsets enumerates the power set", "statement": "subsets(S) lists every subset of S exactly once, in order of non-decreasing size, 2^|S| in total.", "quantifier": "every finite set", "why_tests_cant": "all sizes", "anchors": ["utlvce/utils.py:subsets"]}
{"id": "C35", "title": "cartesian", "statement": "cartesian(arrays, dtype) of non-empty arrays lists the Cartesian product in lexicographic order of positions, one row per combination, when all values fit the dtype.", "quantifier": "all lists of non-empty arrays", "why_tests_cant": "all sizes", "anchors": ["utlvce/utils.py:cartesian"]}
{"id": "C36", "title": "sort, member, all_but, sorted_tuple, argmin/argmax", "statement": "sort(L, order) returns a permutation of L in which elements appear in the relative order of `order`; sort(L) and sorted_tuple return the ascending permutation; member(L,A) is the least index at which A occurs or None iff it does not; all_but(k,p) is [0..p-1] without the elements of k in order; argmin (argmax) returns the first row-major position of a least (greatest) entry.", "quantifier": "all inputs", "why_tests_cant": "all sizes", "anchors": ["utlvce/utils.py:sort", "utlvce/utils.py:member", "utlvce/utils.py:all_but", "utlvce/utils.py:sorted_tuple", "utlvce/utils.py:argmin", "utlvce/utils.py:argmax"]}
{"id": "C37", "title": "split_data folds do not overlap", "statement": "split_data(data, ratios) raises ValueError iff the ratios do not sum to 1; otherwise it returns len(ratios) folds, each with one sample per environment in the order of data, and for every environment the folds are consecutive disjoint parts of one permutation of its rows, fold i having round(n*ratio_i) rows unless the rows run out.", "quantifier": "all data sizes, all ratios summing to one, all shuffles", "why_tests_cant": "all shuffles and sizes", "anchors": ["utlvce/utils.py:split_data"]}
{"id": "C38", "title": "split_data loses no observation", "statement": "Every observation of every environment ends up in exactly one fold returned by split_data.", "quantifier": "all data sizes and ratios", "why_tests_cant": "rounding behaviour depends on the size and the ratios", "anchors": ["utlvce/utils.py:split_data"]}
{"id": "C39", "title": "to_factorization is faithful", "statement": "to_factorization(G) raises ValueError iff G is not a DAG; otherwise entry j is the ascending list of the parents of j, and two 0/1 DAGs have the same factorization iff they are equal.", "quantifier": "all non-negative matrices", "why_tests_cant": "all pairs of graphs", "anchors": ["utlvce/utils.py:to_factorization"]}
{"id": "C40", "title": "the score cache behaves like a finite map", "statement": "For every sequence of write(A,I,model,score) and read(A,I) calls on a fresh cache: read returns the model and score of the write with an equal adjacency and an equal target set, or None if there was none; a second write with an equal key raises ValueError and changes nothing; the internal 'unique entries' exception is never raised.", "quantifier": "every history of reads and writes", "why_tests_cant": "unbounded histories", "anchors": ["utlvce/score.py:_Cache"]}
{"id": "C41", "title": "score_dag rejects non-DAGs in every state", "statement": "Whatever was scored before on the same Score object (with or without caching, with or without init_model), score_dag(A,I) raises ValueError when A is not a DAG, and no failed call changes what later calls return.", "quantifier": "every history of score_dag calls", "why_tests_cant": "unbounded histories; the cache is consulted before the check", "anchors": ["utlvce/score.py:Score.score_dag", "utlvce/score.py:_Cache"]}
{"id": "C42", "title": "score_dag results are repeatable through the cache", "statement": "A second score_dag(A,I) on the same Score object performs no optimisation and returns the same score and a model with the same A, B, gamma, omegas, psis as the first call, for any calls in between.", "quantifier": "every history", "why_tests_cant": "unbounded histories", "anchors": ["utlvce/score.py:Score.score_dag", "utlvce/score.py:_Cache"]}
{"id": "C43", "title": "score_dag accepts an initial model in every state", "statement": "score_dag(A,I,init_model=m) with m.A == A for a DAG A does not raise an error that depends on which pairs were scored before.", "quantifier": "every history", "why_tests_cant": "unbounded histories", "anchors": ["utlvce/score.py:Score.score_dag", "utlvce/score.py:_Cache.write"]}
{"id": "C44", "title": "score_dag stops within its limits", "statement": "The alternating procedure runs at most max_iter rounds, stops as soon as max_fluctuations rounds worsened the score by more than threshold_fluctuation or B moved by at most threshold_dist_B, and returns the model of its last round.", "quantifier": "all solvers, thresholds and data", "why_tests_cant": "the solvers are arbitrary functions of the state", "anchors": ["utlvce/score.py:Score.score_dag"]}
{"id": "C45", "title": "score_dag is defined for every limit", "statement": "score_dag returns a model and score for every DAG, including max_iter=0 or max_fluctuations=0 (documented as maximum numbers of iterations / fluctuations allowed).", "quantifier": "all parameter values", "why_tests_cant": "boundary parameters over all inputs", "anchors": ["utlvce/score.py:Score.score_dag"]}
{"id": "C46", "title": "the score returned by score_dag is the score of the returned parameters", "statement": "score_dag returns (model, score) such that score equals Model(model.A, model.B, model.gamma, model.omegas, model.psis).score(sample_covariances, n_obs).", "quantifier": "all runs", "why_tests_cant": "depends on a hidden attribute (I_B) kept in sync with B over all iterations", "anchors": ["utlvce/score.py:Score.score_dag", "utlvce/model.py:Model.score", "utlvce/model.py:Model.__init__"]}
{"id": "C47", "title": "fitted models satisfy the intervention constraint", "statement": "In every model returned by score_dag(A,I) without init_model, the noise variance of each variable not in I is the same in all environments; with psi_fixed=True each latent variance is the same in all environments.", "quantifier": "all data, DAGs, targets, step sizes and iteration counts", "why_tests_cant": "invariant over unboundedly many gradient steps", "anchors": ["utlvce/score.py:_initialize_omegas", "utlvce/score.py:_solve_for_rest", "utlvce/score.py:Score.score_dag"]}
{"id": "C48", "title": "fitted variances stay in their bounds", "statement": "In every model returned by score_dag without init_model, omegas and psis are strictly positive and psis are strictly below psi_max when it is given; a psi_max <= 1 always raises ValueError because psis start at 1.", "quantifier": "all data and parameters", "why_tests_cant": "invariant over all gradient steps", "anchors": ["utlvce/score.py:_solve_for_rest", "utlvce/score.py:_gradient_descent", "utlvce/score.py:_is_within_bounds", "utlvce/score.py:_initialize_psis"]}
{"id": "C49", "title": "fitted B respects the DAG", "statement": "Every B produced by _initialize_B and by the three B solvers is zero wherever A is zero, so that copying the model during the optimisation never raises.", "quantifier": "all DAGs, all data, all random initialisations", "why_tests_cant": "depends on flattening/transposition conventions for every p", "anchors": ["utlvce/score.py:_solve_for_B_grad", "utlvce/score.py:_solve_for_B_adaptive", "utlvce/score.py:_solve_for_B_cvx", "utlvce/score.py:_initialize_B"]}
{"id": "C50", "title": "gradient descent never worsens the loss", "statement": "_gradient_descent returns (X, l) with l = loss(X) <= loss(X_init), X strictly within the bounds if given; it raises ValueError iff X_init is not strictly within the bounds (or a bound is inverted); every accepted step strictly decreases the loss.", "quantifier": "all loss and gradient functions", "why_tests_cant": "the functions are arbitrary", "anchors": ["utlvce/score.py:_gradient_descent", "utlvce/score.py:_is_within_bounds"]}
{"id": "C51", "title": "gradient descent terminates", "statement": "In exact arithmetic, if the loss is bounded below on the bounded region and threshold_loss > 0 and kappa_zero_point > 0, _gradient_descent returns after finitely many iterations.", "quantifier": "all such loss and gradient functions and starting points", "why_tests_cant": "termination over arbitrary functions", "anchors": ["utlvce/score.py:_gradient_descent"]}
{"id": "C52", "title": "graph pruning explores a nested chain", "statement": "With prune=True and no threshold, for a 0/1 candidate graph with m edges whose fitted B is non-zero on every edge, _prune_graphs fits exactly m+1 models, whose graphs form a chain from the candidate to the empty graph, each obtained by deleting the edge with the smallest non-zero |B|; with prune=False it fits exactly the candidates.", "quantifier": "all candidate lists, all fitted weights", "why_tests_cant": "the fitted weights are arbitrary", "anchors": ["utlvce/main.py:_prune_graphs", "utlvce/main.py:_weakest_edge"]}
{"id": "C53", "title": "graph pruning terminates", "statement": "_prune_graphs terminates for every candidate DAG and every fitted B that respects the graph.", "quantifier": "all fitted B", "why_tests_cant": "the fitted weights are arbitrary", "anchors": ["utlvce/main.py:_prune_graphs", "utlvce/main.py:_weakest_edge"]}
{"id": "C54", "title": "target pruning explores a nested chain", "statement": "_prune_I without threshold fits p+1 models whose target sets decrease one element at a time from all variables to the empty set, removing variables by increasing variance of their noise-term variances; with a threshold it fits one model for the targets above threshold*max.", "quantifier": "all fitted variances", "why_tests_cant": "arbitrary fitted values", "anchors": ["utlvce/main.py:_prune_I"]}
{"id": "C55", "title": "model selection picks the best score", "statement": "_best_scoring returns the first tuple with the least score; _fit selects the number of latents with the least validation score, the smallest number on ties, and never compares arrays while doing so.", "quantifier": "all score lists", "why_tests_cant": "all inputs", "anchors": ["utlvce/main.py:_best_scoring", "utlvce/main.py:_fit"]}
{"id": "C56", "title": "equivalence_class returns the I-CPDAG of a fitted candidate", "statement": "When equivalence_class returns (icpdag, I, model): icpdag is the I-CPDAG of model.A and I, I is a subset of the variables, and model.A is one of the candidates (prune_edges=False) or a subgraph of one of the candidates (prune_edges=True).", "quantifier": "all candidates, data, solvers", "why_tests_cant": "the solvers are arbitrary", "anchors": ["utlvce/main.py:equivalence_class", "utlvce/main.py:_fit"]}
{"id": "C57", "title": "random_state controls the result", "statement": "equivalence_class and equivalence_class_w_ges split the data according to the random_state argument they are given.", "quantifier": "all values of random_state", "why_tests_cant": "all seeds", "anchors": ["utlvce/main.py:equivalence_class", "utlvce/main.py:equivalence_class_w_ges"]}
{"id": "C58", "title": "Model constructor validation", "statement": "Model(A,B,gamma,omegas,psis) raises ValueError iff the shapes are incompatible, A is not a DAG, or B is non-zero somewhere A is zero; otherwise p, l, e and I_B = I - B^T are consistent with the stored arrays.", "quantifier": "all arrays", "why_tests_cant": "all shapes and values", "anchors": ["utlvce/model.py:Model.__init__"]}
{"id": "C59", "title": "Model.copy", "statement": "Model.copy() of a model built by the constructor succeeds and has equal parameters, and its I_B is consistent with B even when B was replaced on the original by another matrix with the same sparsity; later changes to either object do not affect the other.", "quantifier": "all models", "why_tests_cant": "all histories of assignments", "anchors": ["utlvce/model.py:Model.copy"]}
{"id": "C60", "title": "entailed covariances are well defined", "statement": "For a model on a DAG, I - B^T is always invertible with determinant 1, and covariances() satisfies (I-B^T) Sigma_e (I-B^T)^T = gamma^T diag(psi_e) gamma + diag(omega_e) and is symmetric, for every environment.", "quantifier": "all DAGs and parameter values", "why_tests_cant": "all sizes and real parameters", "anchors": ["utlvce/model.py:Model.covariances", "utlvce/model.py:Model.noise_term_covariances"]}
{"id": "C61", "title": "noise-term covariances are invertible and positive definite", "statement": "If all omegas are positive and all psis non-negative, every noise-term covariance and every entailed covariance is positive definite, hence invertible, so inv_noise_term_covariances and score do not fail.", "quantifier": "all parameter values", "why_tests_cant": "all sizes and real parameters", "anchors": ["utlvce/model.py:Model.noise_term_covariances", "utlvce/model.py:Model.inv_noise_term_covariances"]}
{"id": "C62", "title": "the score does not depend on the order of environments", "statement": "Permuting the environments (sample covariances, n_obs, omegas and psis together) does not change Model.score, as the score is the n_obs-weighted average over environments.", "quantifier": "all permutations and parameters", "why_tests_cant": "all sizes and real parameters", "anchors": ["utlvce/model.py:Model.score"]}
{"id": "C63", "title": "sample validates n_obs", "statement": "Model.sample raises TypeError iff n_obs is neither an int nor a list of ints (up to the first offending entry), ValueError iff a count is not positive, the list has the wrong length, or a count is 1 while covariances are requested; otherwise it returns one sample per environment with the requested number of rows.", "quantifier": "all values of n_obs", "why_tests_cant": "all lists", "anchors": ["utlvce/model.py:Model.sample"]}
{"id": "C64", "title": "generated models respect their inputs", "statement": "sample_parameters raises ValueError iff A is not a DAG or I is not a subset of the nodes; otherwise the model has adjacency A, a B supported on A, e environments, num_latent latents, and every variable outside I has the same noise variance in all environments.", "quantifier": "all random draws within the requested ranges", "why_tests_cant": "all draws", "anchors": ["utlvce/generators.py:sample_parameters"]}
{"id": "C65", "title": "generated variances lie in the documented ranges", "statement": "With obs=True the variances of the first environment are in [var_lo,var_hi] and those of the targets in the other environments in [var_lo+int_var_lo, var_hi+int_var_hi]; the same holds for psi.", "quantifier": "all random draws within the requested ranges", "why_tests_cant": "all draws", "anchors": ["utlvce/generators.py:sample_parameters"]}
{"id": "C66", "title": "intervention_targets", "statement": "intervention_targets(p,k) raises ValueError iff k>p and otherwise returns k distinct targets in [0,p-1]; with a pair (lo,hi) the number of targets ranges over lo..hi inclusive.", "quantifier": "all random draws", "why_tests_cant": "all draws", "anchors": ["utlvce/generators.py:intervention_targets"]}
{"id": "C67", "title": "random graphs are DAGs", "statement": "_dag_avg_deg returns a weighted DAG for every outcome of the random generator, and the returned ordering is a topological ordering of it.", "quantifier": "all random draws", "why_tests_cant": "all draws", "anchors": ["utlvce/generators.py:_dag_avg_deg"]}
{"id": "C68", "title": "assumption-deviation metric of interventions", "statement": "intervention_strength() is non-negative for positive omegas and is zero for a variable iff its noise variance is the same in all environments; in particular it is zero for non-targets of a fitted model.", "quantifier": "all parameter values", "why_tests_cant": "all real parameters", "anchors": ["utlvce/model.py:Model.intervention_strength"]}
{"id": "C69", "title": "scree selection is in range", "statement": "_scree_selection returns a number of latents between 1 and p-1 for p>=3.", "quantifier": "all spectra", "why_tests_cant": "all real spectra", "anchors": ["utlvce/main.py:_scree_selection"]}
{"id": "C70", "title": "is_stable_set is usable", "statement": "is_stable_set(S,j,I,G) returns a boolean.", "quantifier": "all inputs", "why_tests_cant": "refers to a name that is not defined in the module on any path", "anchors": ["utlvce/utils.py:is_stable_set"]}
{"id": "C71", "title": "Score validates its data", "statement": "Score(data,...) raises TypeError/ValueError exactly for data of the wrong type, samples with different numbers of variables, a sample with a single observation, or an unknown B_solver; otherwise n_obs and the covariances have one entry per environment.", "quantifier": "all inputs", "why_tests_cant": "all inputs", "anchors": ["utlvce/score.py:Score.__init__"]}
{"id": "C72", "title": "results of score_dag are independent objects", "statement": "A model returned by score_dag can be changed by the caller without affecting what later calls of score_dag return, and changes to the arrays a model was built from, to the model that was scored or to its copies never affect the cache.", "quantifier": "all histories of constructions, copies, in-place changes, attribute assignments and cache writes", "why_tests_cant": "aliasing only shows for particular interleavings of calls and in-place changes", "anchors": ["utlvce/score.py:_Cache.read", "utlvce/score.py:_Cache.write", "utlvce/model.py:Model.copy"]}
{"id": "C73", "title": "score_dag raises no exception on valid data", "statement": "On positive definite sample covariances, positive sample sizes, a non-empty DAG, at most as many latents as variables, psi_max > 1 and positive limits, no step of score_dag raises: no matrix is singular, no starting point is out of bounds, no intermediate model is rejected, all results are defined; the only exceptions left are those of the convex solver.", "quantifier": "all data, DAGs, targets, random draws and parameters", "why_tests_cant": "requires positive definiteness of every matrix met over all iterations", "anchors": ["utlvce/score.py:Score.score_dag", "utlvce/score.py:_initialize_B", "utlvce/score.py:_solve_for_rest", "utlvce/score.py:_solve_for_gamma"]}
{"id": "C74", "title": "the initial B is the regression on the parents", "statement": "_initialize_B returns the B supported on A that solves the normal equations of every variable on its parents for the average covariance: (Sigma B)[i,j] = Sigma[i,j] for every edge i -> j.", "quantifier": "all covariances and DAGs", "why_tests_cant": "real-valued identity for all p", "anchors": ["utlvce/score.py:_initialize_B", "utlvce/score.py:_regress"]}
{"id": "C75", "title": "a cached model has the score it is returned with", "statement": "The score that score_dag returns with a model is the score of that model on the training data, also when the pair comes from the cache.", "quantifier": "all histories of calls", "why_tests_cant": "the copy made by the cache recomputes I_B from B, so the difference only shows when B changed in the last round", "anchors": ["utlvce/score.py:Score.score_dag", "utlvce/score.py:_Cache.read", "utlvce/model.py:Model.copy"]}
{"id": "C76", "title": "equivalence_class_w_ges refines the GES class", "statement": "When equivalence_class_w_ges returns (icpdag, I, model): model.A is a subgraph of a DAG that is a consistent extension of the PDAG that GES found on the pooled training data with penalty log N, icpdag is the I-CPDAG of model.A and I, and I is a subset of the variables.", "quantifier": "all data, all answers of GES, all solvers", "why_tests_cant": "GES and the solvers are arbitrary", "anchors": ["utlvce/main.py:equivalence_class_w_ges", "utlvce/main.py:_fit_ges", "utlvce/main.py:_fit"]}
{"id": "C77", "title": "invalid candidates are rejected", "statement": "equivalence_class returns only if the list of candidates is not empty and all candidates are acyclic; a cyclic first candidate raises ValueError, an empty list IndexError.", "quantifier": "all candidate lists, data, parameters", "why_tests_cant": "all lists and all histories of the score cache", "anchors": ["utlvce/main.py:equivalence_class", "utlvce/main.py:_prune_graphs"]}
{"id": "C78", "title": "the scree plot maximises the profile likelihood", "statement": "_gaussian_log_likelihood is the log likelihood of the sample for a univariate Gaussian, and _scree_selection maximises the profile log likelihood of Zhu and Ghodsi.", "quantifier": "all samples, all spectra", "why_tests_cant": "all real spectra", "anchors": ["utlvce/main.py:_gaussian_log_likelihood", "utlvce/main.py:_scree_selection"]}
{"id": "C79", "title": "equivalence_class raises no exception on valid inputs", "statement": "For valid folds, acyclic candidates, positive definite training covariances, more than one training observation per environment and valid parameters, equivalence_class returns a result; the only exceptions left are those of the convex solver and a loop that does not end.", "quantifier": "all data, candidates, numbers of latents and parameters", "why_tests_cant": "requires definedness of every operation over all iterations, prunings and numbers of latents", "anchors": ["utlvce/main.py:equivalence_class", "utlvce/main.py:_fit", "utlvce/main.py:_prune_graphs", "utlvce/main.py:_prune_I"]}
{"id": "C80", "title": "chain_graph_model uses its arguments", "statement": "chain_graph_model(p, I, ..., sparse_latents, obs, random_state, verbose) returns sample_parameters(chain_graph(p), I, ..., sparse_latents, obs, random_state, verbose): a model over the chain 0->1->...->p-1, or ValueError iff I is not a subset of the nodes.", "quantifier": "all arguments, all random generators", "why_tests_cant": "the calls of the tests only use the default arguments", "anchors": ["utlvce/generators.py:chain_graph_model"]}
{"id": "C81", "title": "random_graph_model uses its arguments", "statement": "random_graph_model returns a model over the 0/1 DAG generated by _dag_avg_deg(p, k, random_state) whose parameters are those of sample_parameters with the same random_state; it only raises ValueError, iff I is not a subset of the nodes.", "quantifier": "all arguments, all random draws", "why_tests_cant": "all draws and seeds", "anchors": ["utlvce/generators.py:random_graph_model"]}
{"id": "C82", "title": "generated models are proper distributions", "statement": "If var_lo > 0 and the other lower bounds are >= 0, a generated model has positive noise variances, non-negative latent variances and positive definite covariance matrices in every environment.", "quantifier": "all random draws within the requested ranges", "why_tests_cant": "all draws", "anchors": ["utlvce/generators.py:sample_parameters", "utlvce/model.py:Model.covariances"]}
{"id": "C83", "title": "sparse latent effects", "statement": "With sparse_latents every latent variable affects at most round(p/5) variables.", "quantifier": "all random draws", "why_tests_cant": "all draws", "anchors": ["utlvce/generators.py:sample_parameters"]}
{"id": "C84", "title": "extreme average degrees", "statement": "_dag_avg_deg returns a complete graph if k >= p-1 (positive weights) and an empty one if k < 0, for p > 1.", "quantifier": "all random draws", "why_tests_cant": "all draws", "anchors": ["utlvce/generators.py:_dag_avg_deg"]}
{"id": "C85", "title": "bounds of scaled_latent_incoherence", "statement": "scaled_latent_incoherence lies between d*min(p,l)/p and d, for d the largest degree of the moral graph of the model.", "quantifier": "all models with positive noise variances, every singular value decomposition", "why_tests_cant": "real-valued parameters", "anchors": ["utlvce/model.py:Model.scaled_latent_incoherence"]}
{"id": "C86", "title": "the I-CPDAG is the union of the I-Markov equivalence class", "statement": "i->j or i-j is in dag_to_icpdag(G, I) iff some DAG I-Markov equivalent to G has the edge i->j: an edge is directed iff all members of the class agree on it.", "quantifier": "all DAGs, all sets of targets, all set iteration orders", "why_tests_cant": "needs completeness of Meek's rules with background knowledge, over all graphs and target sets", "anchors": ["utlvce/utils.py:dag_to_icpdag", "utlvce/utils.py:maximally_orient"]}
{"id": "C87", "title": "the I-CPDAG is a canonical representative", "statement": "dag_to_icpdag(G, I) = dag_to_icpdag(G', I') for I, I' the same set iff G and G' are I-Markov equivalent; the result does not depend on the order or repetition of targets or on the set iteration order.", "quantifier": "all pairs of DAGs over the same nodes, all target sets, all iteration orders", "why_tests_cant": "pairs of graphs and hash orders are unbounded", "anchors": ["utlvce/utils.py:dag_to_icpdag"]}
{"id": "C88", "title": "maximally_orient is canonical and idempotent", "statement": "maximally_orient gives the same matrix (or the same ValueError) for PDAGs with the same consistent extensions, whatever the set iteration order; applying it to its own result, or to an I-CPDAG, changes nothing.", "quantifier": "all PDAGs without self-loops, with arbitrary weights (canonical up to the weights), all iteration orders", "why_tests_cant": "confluence over all rule application orders and all graphs", "anchors": ["utlvce/utils.py:maximally_orient"]}
{"id": "C89", "title": "the gamma gradient is the gradient of the likelihood", "statement": "For every valid model, positive omegas and non-negative psis, gradients(gamma) in _solve_for_gamma is the gradient of the Gaussian likelihood of the data as a function of gamma.", "quantifier": "all models, dimensions, environments, covariances, sample sizes, directions", "why_tests_cant": "analytic statement about all directions and limits", "anchors": ["utlvce/score.py:_solve_for_gamma"]}
{"id": "C90", "title": "the gradients for omegas and psis are likelihood gradients projected to the constraint", "statement": "The result of gradients in _solve_for_rest is constant outside of the intervention targets (psis: if psi_fixed), and its inner product with every such direction is the derivative of the likelihood.", "quantifier": "all models, targets, directions", "why_tests_cant": "analytic statement about all directions and limits", "anchors": ["utlvce/score.py:_solve_for_rest"]}
{"id": "C91", "title": "gradient descent follows the gradient of its loss", "statement": "The gradient passed to _gradient_descent is the gradient of the loss passed to it.", "quantifier": "all models and numbers of environments", "why_tests_cant": "the tests compare one of the two with a numerical approximation on random inputs only", "anchors": ["utlvce/score.py:_solve_for_gamma", "utlvce/score.py:_solve_for_rest", "utlvce/model.py:Model.score"]}
{"id": "C92", "title": "_solve_for_B_grad returns the likelihood-optimal B", "statement": "Given the other parameters, no matrix with the sparsity of A has a better likelihood than the returned one (up to the stopping threshold).", "quantifier": "all data, sample sizes, draws", "why_tests_cant": "optimality over all matrices", "anchors": ["utlvce/score.py:_solve_for_B_grad"]}
{"id": "C93", "title": "_solve_for_B_grad terminates", "statement": "The loop ends for all positive definite covariances and all random starts.", "quantifier": "all data and draws", "why_tests_cant": "non-termination cannot be tested", "anchors": ["utlvce/score.py:_solve_for_B_grad"]}
{"id": "C94", "title": "_solve_for_B_adaptive terminates with an improved score", "statement": "The solver ends, with a matrix that scores no worse than its random start.", "quantifier": "all data and draws", "why_tests_cant": "non-termination cannot be tested", "anchors": ["utlvce/score.py:_solve_for_B_adaptive"]}
{"id": "C95", "title": "the convex problem is the likelihood problem", "statement": "A minimiser of the objective given to cvxpy under its constraints is a likelihood-optimal B for the other parameters.", "quantifier": "all data, sample sizes, models", "why_tests_cant": "optimality over all matrices", "anchors": ["utlvce/score.py:_solve_for_B_cvx"]}
{"id": "C96", "title": "the score is consistent", "statement": "At the covariances entailed by a model, Model.score of that model is minimal among all models (any DAG, any number of latents, any parameters), and every other minimiser entails the same covariances in every environment.", "quantifier": "all models, sample sizes and numbers of environments", "why_tests_cant": "minimality over all models", "anchors": ["utlvce/model.py:Model.score", "utlvce/model.py:Model.covariances"]}
{"id": "C97", "title": "the score is bounded below", "statement": "For positive definite sample covariances the score of every model is at least that of the sample covariances themselves.", "quantifier": "all data and models", "why_tests_cant": "all models", "anchors": ["utlvce/model.py:Model.score"]}
{"id": "C98", "title": "score_dag terminates", "statement": "For positive definite sample covariances and positive thresholds _solve_for_gamma and _solve_for_rest return after finitely many steps, so score_dag with the convex solver returns.", "quantifier": "all data, graphs, targets, initial models and random draws", "why_tests_cant": "non-termination cannot be tested", "anchors": ["utlvce/score.py:_solve_for_gamma", "utlvce/score.py:_solve_for_rest", "utlvce/score.py:score_dag"]}
{"id": "C99", "title": "the entry points terminate", "statement": "In exact arithmetic equivalence_class and equivalence_class_w_ges terminate whenever the solver for B does; with the convex solver, if it answers on every DAG, they return a result.", "quantifier": "all data, candidate DAGs, numbers of latents, random draws and arguments with valid values", "why_tests_cant": "termination of nested loops over real numbers", "anchors": ["utlvce/main.py:equivalence_class", "utlvce/main.py:equivalence_class_w_ges", "utlvce/main.py:_fit", "utlvce/main.py:_prune_graphs", "utlvce/main.py:_prune_I"]}
{"id": "C100", "title": "the score does not distinguish equivalent DAGs", "statement": "The score of a model depends on its entailed covariances only. DAGs in the same I-Markov equivalence class (the same result of dag_to_icpdag) reach the same scores on all data with models that are invariant outside of I.", "quantifier": "all DAGs, targets, parameters, data and numbers of latents", "why_tests_cant": "all data and all models; needs a construction of the equivalent model", "anchors": ["utlvce/model.py:Model.score", "utlvce/utils.py:dag_to_icpdag", "utlvce/main.py:_fit"]}
{"id": "C101", "title": "the graph functions do not depend on the names of the variables", "statement": "If the variables of a graph are renamed, is_dag answers the same, and dag_to_cpdag, dag_to_icpdag, maximally_orient, pdag_to_cpdag, pdag_to_icpdag, all_dags, mec and imec return the renamed result (the lists up to order) or raise the same exception; whatever the iteration orders of sets.", "quantifier": "all graphs, renamings, targets and set orders", "why_tests_cant": "the algorithms scan nodes in order of their index and edges in an order computed from it; all permutations of all graphs", "anchors": ["utlvce/utils.py:is_dag", "utlvce/utils.py:dag_to_cpdag", "utlvce/utils.py:dag_to_icpdag", "utlvce/utils.py:maximally_orient", "utlvce/utils.py:pdag_to_cpdag", "utlvce/utils.py:all_dags", "utlvce/utils.py:mec", "utlvce/utils.py:imec"]}
{"id": "C102", "title": "the score does not depend on the names of variables and latents", "statement": "Renaming the variables of a model and of the data leaves the score unchanged. So does permuting the latents, and changing the sign and the unit of each.", "quantifier": "all models with positive noise variances and non-negative latent variances, all data", "why_tests_cant": "all permutations, scales, models and data", "anchors": ["utlvce/model.py:Model.__init__", "utlvce/model.py:Model.score"]}
{"id": "C103", "title": "normalized_var is a number between 0 and 1", "statement": "normalized_var returns, overall or per column or row, 1 minus the squared sum over n times the sum of squares. This lies in [0, 1], is 0 iff the data are constant and 1 iff they sum to 0, and does not change if the data are scaled; it is undefined iff all data are 0.", "quantifier": "all matrices and all axes", "why_tests_cant": "all data; equality cases of the Cauchy-Schwarz inequality", "anchors": ["utlvce/utils.py:normalized_var"]}
{"id": "C104", "title": "delete removes the masked elements with every admitted version of numpy", "statement": "delete returns the array without the masked elements for every version of numpy the package admits (1.17.0 on, with a minor version below 100), although versions are compared as strings.", "quantifier": "all versions a.b.c, arrays and masks of the same length", "why_tests_cant": "tests run with one version of numpy", "anchors": ["utlvce/utils.py:delete"]}
{"id": "C105", "title": "score_dag does not worsen the score of its starting point", "statement": "The parameters score_dag returns score no worse than those of the initial model it is given, or else of the one it builds.", "quantifier": "all data, graphs, targets, initial models, hyperparameters and runs, with the step for B solved exactly", "why_tests_cant": "all runs of an alternating optimisation; the failure needs several environments and an exact solver", "anchors": ["utlvce/score.py:Score.score_dag", "utlvce/model.py:Model.score"]}
{"id": "C106", "title": "equivalence_class rejects samples with a single observation and no others", "statement": "With the default folds (1/2, 1/4, 1/4), equivalence_class raises ValueError for a sample with a single observation (as documented), and otherwise each sample of the training data and of both test folds has at least the two observations a covariance needs.", "quantifier": "all sample sizes, shuffles and numbers of environments", "why_tests_cant": "all sample sizes and environments; tests use large samples", "anchors": ["utlvce/main.py:_fit", "utlvce/utils.py:split_data", "utlvce/score.py:Score.__init__"]}
{"id": "C107", "title": "sample covariances are positive definite iff the sample is in general position", "statement": "The covariance of a sample of at least two observations is symmetric and positive semi-definite. It is positive definite iff every non-trivial linear combination of the variables takes two values in the sample, and never if there are at most as many observations as variables. It does not depend on the order of the observations.", "quantifier": "all samples of any dimension", "why_tests_cant": "all real samples", "anchors": ["utlvce/score.py:Score.__init__", "utlvce/main.py:_fit"]}
{"id": "C108", "title": "the score does not depend on the units of the variables up to a constant", "statement": "If each variable is multiplied by a non-zero factor and shifted, the sample covariances are converted, the converted parameters are accepted and entail the converted covariances, and the score of every model changes by the same number, so that scores of models compare as before.", "quantifier": "all models, samples, factors and shifts", "why_tests_cant": "all models and units; floating point equality hides it", "anchors": ["utlvce/model.py:Model.score", "utlvce/model.py:Model.covariances", "utlvce/score.py:Score.__init__"]}
{"id": "C109", "title": "the order of pruning does not depend on the units of the variables", "statement": "The edge that is pruned first and the order in which intervention targets are removed are the same if the variables are measured in other units.", "quantifier": "all models and units", "why_tests_cant": "all models and units", "anchors": ["utlvce/main.py:_weakest_edge", "utlvce/main.py:_prune_I", "utlvce/utils.py:normalized_var"]}
{"id": "C110", "title": "nums_latent is a set", "statement": "The result of equivalence_class and of equivalence_class_w_ges does not depend on the order of nums_latent nor on repetitions in it, when the solver of B draws no random matrices or draws the same ones for every number of latents.", "quantifier": "all data, candidates, options and lists of numbers of latents with the same elements", "why_tests_cant": "all lists and all data; each number is fitted with its own state and ties are broken by position in dictionaries", "anchors": ["utlvce/main.py:_fit", "utlvce/main.py:equivalence_class", "utlvce/main.py:equivalence_class_w_ges"]}
{"id": "C111", "title": "store_history only affects the history, which explains the result", "statement": "store_history changes neither the result nor the exceptions of _fit. There is a history iff it is not 0; with values above 1 the result is the first entry of least score of pruned_Is, its graph that of the first entry of least score of pruned_graphs, every entry has the test score of a model fitted to the training data for it, and every pruned graph is a subgraph of one of the stored initial graphs; with values above 2 it has the Score object of the selected number of latents, which returns the parameters behind every entry of the history without fitting again.", "quantifier": "all data, candidates, options and values of store_history", "why_tests_cant": "all data and fits", "anchors": ["utlvce/main.py:_fit"]}
{"id": "C112", "title": "ges_env, ges_phases and ges_lambdas select the initial graphs", "statement": "Without initial graphs, _fit starts from exactly the DAGs of the classes GES finds, for each of ges_lambdas, in the pooled training data or in the training data of environment ges_env (which may be negative; IndexError out of range). An empty ges_lambdas raises IndexError. Without options _fit is the procedure behind equivalence_class and equivalence_class_w_ges.", "quantifier": "all data, results of GES and options", "why_tests_cant": "all graphs GES may return", "anchors": ["utlvce/main.py:_fit", "utlvce/main.py:_fit_ges", "utlvce/utils.py:all_dags"]}
{"id": "C113", "title": "the initial latent effects are principal components, and the initial noise counts them twice", "statement": "The rows of the initial gamma are orthogonal, ordered by length, explain at most the covariance of the residuals X - B^T X (all of it when l = p) and at least as much variance as any l orthonormal directions. The noise variances of the initial model, averaged over the observations, are those of the residuals plus those that gamma explains: between once and twice the residual variances, and exactly twice when l = p.", "quantifier": "all covariances, DAGs, targets and numbers of latents", "why_tests_cant": "optimality among all sets of l orthonormal directions, for all real covariances", "anchors": ["utlvce/score.py:_initialize_gamma", "utlvce/score.py:_initialize_omegas", "utlvce/score.py:_initialize_psis"]}
{"id": "C114", "title": "init selects the covariance used for the initial parameters", "statement": "init='avg' uses the average covariance and init='obs' that of the first environment, in _initialize_B, _initialize_gamma and _initialize_omegas; any other value raises ValueError.", "quantifier": "all covariances, graphs and targets", "why_tests_cant": "equality of the results for all covariances; the tests only check shapes and constraints", "anchors": ["utlvce/score.py:_initialize_B", "utlvce/score.py:_initialize_gamma", "utlvce/score.py:_initialize_omegas"]}
{"id": "C115", "title": "pruning works in place on adjacencies without the change being observable", "statement": "_prune_graphs changes adjacencies in place, but its outcome and its cache are those of the program on values, no array that existed before the call (the caller's candidates, cached graphs, adjacencies of models returned earlier) is changed, and the references in the cache stay valid.", "quantifier": "all memories, caches, candidate lists (with repeated references), numbers of prunings", "why_tests_cant": "aliasing between candidates, cache entries and returned models in every combination", "anchors": ["utlvce/main.py:_prune_graphs", "utlvce/score.py:_Cache.write", "utlvce/score.py:Score.score_dag"]}
{"id": "C116", "title": "the I-CPDAG is exactly what data can tell about a DAG", "statement": "Without latent variables and with at least two environments, the models over two DAGs that are invariant outside of the targets I entail the same covariances, and reach the same scores on all data, if and only if dag_to_icpdag returns the same graph for both; with one environment if and only if the DAGs are Markov equivalent. With fewer than p - 1 latent variables that are perturbed across at least two environments, and no other interventions, they do so if and only if dag_to_cpdag returns the same graph; with one environment this fails.", "quantifier": "all pairs of DAGs, targets, numbers of environments, all covariances", "why_tests_cant": "for every pair of graphs that differ, data that tell them apart have to be found; for every pair that does not, all models have to be compared", "anchors": ["utlvce/utils.py:dag_to_icpdag", "utlvce/model.py:Model", "utlvce/model.py:Model.score"]}
{"id": "C117", "title": "targets refine the I-CPDAG, and they identify a DAG exactly when they touch all its covered edges", "statement": "Adding targets keeps the adjacencies of the graph returned by dag_to_icpdag, removes no orientation and adds no edge; without targets the result is the one of dag_to_cpdag. The result is the DAG itself if and only if every covered edge of the DAG has an endpoint among the targets, and a covered edge is undirected in the result if and only if neither of its endpoints is a target.", "quantifier": "all DAGs, all lists of targets, all iteration orders", "why_tests_cant": "the claim compares the results for all pairs of nested target sets and decides identifiability for all graphs", "anchors": ["utlvce/utils.py:dag_to_icpdag", "utlvce/utils.py:dag_to_cpdag", "utlvce/utils.py:maximally_orient"]}
{"id": "C118", "title": "on exact data with exact fits, the result is the first candidate that explains the data, with the fewest latents and all variables as targets", "statement": "Suppose the three folds have the same covariances and the fitting procedure finds parameters that entail them whenever the graph, the bounds and the targets admit some. If some candidate admits such parameters, then the model returned by _fit entails the covariances, its graph is the first candidate in the list that can entail them (so nothing is pruned), its number of latent variables is the least with which a candidate can, and the returned targets are all the variables. The I-CPDAG returned by equivalence_class is then that candidate, as a class with a single graph.", "quantifier": "all numbers of variables, environments and latents, all candidate lists, data, options and oracles, with or without pruning", "why_tests_cant": "exact data and exact fits are a limit that no finite sample or float optimisation reaches", "anchors": ["utlvce/main.py:_fit", "utlvce/main.py:equivalence_class", "utlvce/main.py:_best_scoring", "utlvce/main.py:_prune_graph", "utlvce/main.py:_prune_I"]}
{"id": "C119", "title": "on exact data with exact fits, the returned class contains the graph that generated the data", "statement": "If a candidate generated the data and the folds and the fits are exact, the I-CPDAG returned by equivalence_class represents a class that contains this candidate.", "quantifier": "all candidate lists and data", "why_tests_cant": "needs exact data and fits; on finite samples the choice among equivalent candidates looks random", "anchors": ["utlvce/main.py:equivalence_class", "utlvce/main.py:_fit", "utlvce/main.py:_prune_I"]}
{"id": "C120", "title": "_fit calls score_dag once per pruned graph and set of targets and fits no pair twice", "statement": "When _fit succeeds without thresholds, the Score object of the selected number of latents has been called exactly once for each entry of pruned_graphs and of pruned_Is. With pruning, pruned_graphs has one entry for each candidate and one for each of its edges, of which there are at most p (p - 1) / 2; pruned_Is has p + 1. The first call of _prune_I is answered from the cache, and no pair of a graph and a set of targets is fitted twice.", "quantifier": "all data, candidates, options and oracles", "why_tests_cant": "bounds the work for all inputs, including fits with zero weights for which pruning would not end", "anchors": ["utlvce/main.py:_fit", "utlvce/main.py:_prune_graphs", "utlvce/main.py:_prune_I", "utlvce/score.py:Score.score_dag"]}
{"id": "C121", "title": "score_dag does not depend on the names of the variables", "statement": "If the variables of the data, of the graph, of the targets and of the initial model are renamed, then score_dag raises the same error or returns the same score and the renamed model, after any earlier calls and with or without a cache. This holds for each of the three solvers for B, for both gradient descents and for the default initialisation, and for every iteration order of sets.", "quantifier": "all renamings, positive definite covariances, positive sample sizes, options, sequences of calls", "why_tests_cant": "quantifies over all renamings, data and histories; a test compares floating-point fits up to a tolerance", "anchors": ["utlvce/score.py:Score.score_dag", "utlvce/score.py:_solve_for_B_cvx", "utlvce/score.py:_solve_for_B_grad", "utlvce/score.py:_solve_for_B_adaptive", "utlvce/score.py:_solve_for_gamma", "utlvce/score.py:_solve_for_rest", "utlvce/score.py:_Cache"]}
{"id": "C122", "title": "Score accepts samples of any number of variables and fits them", "statement": "Score.__init__ accepts every list of samples of at least two observations each of the same variables, and computes the e x p x p array of their sample covariances, which score_dag can read; Model.sample(compute_covs=True) returns that array too. This is false for one variable: np.cov then returns a 0-dimensional array, so the array has shape (e,), and score_dag raises ValueError for every graph on the object that __init__ accepted. It holds for every other number of variables.", "quantifier": "all numbers of environments, variables and observations, all samples, all graphs", "why_tests_cant": "quantifies over all sizes and samples; the tests only use several variables, so the squeezed array never occurs", "anchors": ["utlvce/score.py:Score.__init__", "utlvce/score.py:_initialize_B", "utlvce/score.py:Score.score_dag", "utlvce/model.py:Model.sample"]}
{"id": "C123", "title": "the graph functions only see which entries of the adjacency are non-zero", "statement": "The docstrings read an edge off a non-zero entry, so two adjacencies of non-negative weights with the same edges should be treated alike. The node sets, edge lists, skeleton, v-structures, moral graph, paths, orderings, is_dag, is_consistent_extension, dag_to_cpdag, pdag_to_cpdag, dag_to_icpdag, pdag_to_icpdag, and mec and imec without the chain shortcut agree on them exactly; pdag_to_dag and maximally_orient raise the same error or return arrays with the same edges. This is false of two functions: all_dags raises AssertionError whenever an undirected edge has a weight other than 1, and is_supergraph(A, A) is false whenever A has a weight other than 1.", "quantifier": "all pairs of arrays of non-negative weights with the same edges, all set orders, nodes and targets", "why_tests_cant": "quantifies over all pairs of arrays; the tests use 0/1 arrays for all_dags and is_supergraph", "anchors": ["utlvce/utils.py:all_dags", "utlvce/utils.py:is_supergraph", "utlvce/utils.py:topological_ordering", "utlvce/utils.py:pdag_to_dag", "utlvce/utils.py:maximally_orient", "utlvce/utils.py:dag_to_icpdag", "utlvce/utils.py:pdag_to_icpdag"]}
{"id": "C124", "title": "sample_parameters uses every random draw for one parameter only", "statement": "Without sparse_latents and without an observational environment, two different parameters of the model returned by sample_parameters never depend on the same random draw: if one draw of the generator is replaced, at most one weight, latent effect, noise variance or latent variance changes (the noise variance of a variable that is not a target counts once for all environments). With an observational environment, where the base values are shared on purpose, a draw affects at most one weight, one latent effect, or the variances of one variable.", "quantifier": "all streams of draws, sizes, graphs, target sets, bounds and set orders", "why_tests_cant": "a test sees one stream; an overlap of two slices of the stream correlates parameters without an error", "anchors": ["utlvce/generators.py:sample_parameters"]}
{"id": "C125", "title": "equivalence_class does not depend on the names of the variables", "statement": "If the columns of all samples and the nodes of all candidate graphs are renamed in the same way, equivalence_class returns the renamed I-CPDAG, the renamed set of targets and the same model with other names, or raises the same exception. The numerical functions do not look at names, the rows are shuffled in the same way and the random draws are those of the renamed variables. There are no ties: in the models fitted to subgraphs of the candidates with all variables as targets no two edges have weights of the same absolute value (needed with prune_edges only) and no two variables have the same variance of the noise-term variances.", "quantifier": "all renamings, samples with positive definite covariances, candidate graphs, arguments, set orders and numbers of latents", "why_tests_cant": "a dependence on the order of the columns shows only for data on which two branches of the search are close; a test cannot try all orders", "anchors": ["utlvce/main.py:equivalence_class", "utlvce/main.py:_fit", "utlvce/main.py:_prune_graphs", "utlvce/main.py:_prune_I"]}
{"id": "C126", "title": "equivalence_class does not depend on the order of the candidates", "statement": "If the candidate graphs are given in another order, equivalence_class returns the same I-CPDAG, targets and model. Fitting makes no random draws (so it is for the solver 'cvx'), and models of different examined graphs have different scores on the samples used to choose the graph.", "quantifier": "all lists of candidate graphs and permutations of them, samples, arguments, set orders and numbers of latents", "why_tests_cant": "the models of all graphs go through one cache, so the model of a graph can depend on which graphs were examined before it; a test sees a few orders only", "anchors": ["utlvce/main.py:equivalence_class", "utlvce/main.py:_fit", "utlvce/main.py:_prune_graphs", "utlvce/score.py:Score.score_dag"]}
{"id": "C127", "title": "A candidate given twice changes nothing", "statement": "If a graph is in the list of candidates twice, equivalence_class returns a model of the same graph as without the repetition.", "quantifier": "all lists of candidate graphs, samples and arguments", "why_tests_cant": "the second model comes from the cache and differs from the first only in an attribute that agrees with the weights; this changes the result only if two graphs have close scores", "anchors": ["utlvce/main.py:equivalence_class", "utlvce/main.py:_prune_graphs", "utlvce/score.py:Score.score_dag", "utlvce/model.py:Model.copy"]}
{"id": "C128", "title": "equivalence_class sees the data only through the sizes and covariances of the folds", "statement": "If the samples of two data sets have, in every fold and environment, the same number of observations and the same covariance, equivalence_class does the same for both: it returns the same value or raises the same exception. So adding to the observations of each environment a vector of its own does not change the result.", "quantifier": "all data sets, translations, lists of candidate graphs, arguments and numbers of latents", "why_tests_cant": "a test compares a few data sets; here no function that is called may look at a mean, at single observations or at the order of the rows", "anchors": ["utlvce/main.py:equivalence_class", "utlvce/main.py:_fit", "utlvce/score.py:Score.__init__", "utlvce/utils.py:split_data"]}
{"id": "C129", "title": "equivalence_class_w_ges does not depend on the means of the environments", "statement": "Adding to the observations of each environment a vector of its own does not change the result of equivalence_class_w_ges, if the shuffles do not look at the observations and the graph that ges returns depends on the covariance of its sample only.", "quantifier": "all data sets, translations and arguments", "why_tests_cant": "the means of the environments in simulated data are mostly equal, so that the union of the environments has about the covariance that the environments have", "anchors": ["utlvce/main.py:equivalence_class_w_ges", "utlvce/main.py:_fit", "utlvce/main.py:_fit_ges"]}
{"id": "C130", "title": "The graph functions never change an array of the caller and return new arrays", "statement": "topological_ordering, is_dag, is_consistent_extension, moral_graph, remove_edges, add_edges, pdag_to_dag, order_edges, label_edges, dag_to_cpdag, pdag_to_cpdag, maximally_orient, dag_to_icpdag, pdag_to_icpdag, all_dags, chain_graph_MEC, chain_graph_IMEC, mec and imec change arrays in place, but after a call every array that existed before it has its old entries, also if the call raises an exception; the returned arrays are new and different from each other, and their entries are those that the functions on values give.", "quantifier": "all memories, references to arrays in them (also equal ones), matrices in them, set orders, random choices and targets", "why_tests_cant": "a test compares the argument before and after some calls; here no execution may write to an array that it did not make, including executions that end with an exception", "anchors": ["utlvce/utils.py:topological_ordering", "utlvce/utils.py:pdag_to_dag", "utlvce/utils.py:maximally_orient", "utlvce/utils.py:dag_to_icpdag", "utlvce/utils.py:all_dags", "utlvce/utils.py:mec", "utlvce/utils.py:imec"]}
{"id": "C131", "title": "The parameters come from the training fold alone; the other folds only select", "statement": "Two runs of _fit, equivalence_class or equivalence_class_w_ges whose first folds agree and that return the same number of latents, graph and set of targets return the same model, whatever the other two folds are. The second fold matters only through the number of latents and the graph: if these and the third fold agree the results agree. The third fold decides neither: it selects the first model of least score from a list of models that does not depend on it and has no set of targets twice.", "quantifier": "all data sets, folds, candidates, settings, solvers and random draws; np.argsort sorts", "why_tests_cant": "no leakage is a statement about pairs of runs on arbitrary test observations; a wrong sample in a call that fits or scores changes the result for some data only", "anchors": ["utlvce/main.py:_fit", "utlvce/main.py:_prune_graphs", "utlvce/main.py:_prune_I", "utlvce/main.py:_best_scoring"]}
{"id": "C132", "title": "equivalence_class does not depend on the order of the environments", "statement": "Giving the samples of the environments in another order does not change the result of equivalence_class.", "quantifier": "all data sets, candidates, settings and permutations of the environments", "why_tests_cant": "the order of the environments is fixed in every test; for samples of similar environments the wrong weights seldom change the selection", "anchors": ["utlvce/main.py:equivalence_class", "utlvce/main.py:_fit", "utlvce/score.py:score_model", "utlvce/model.py:score"]}
{"id": "C133", "title": "candidates that share their edge weights give the same result", "statement": "Multiplying each edge of all candidates by a positive weight of that edge changes nothing in the result of equivalence_class but the adjacency stored in the returned model, which carries the weights.", "quantifier": "all data sets, settings, candidates and positive edge weights, with and without pruning, provided the convex solver sees only the mask of the edges", "why_tests_cant": "the tests only pass 0/1 candidates; the claim ranges over all weights and follows the whole search with its cache", "anchors": ["utlvce/main.py:equivalence_class", "utlvce/main.py:_prune_graphs", "utlvce/score.py:score_dag", "utlvce/score.py:_Cache"]}
{"id": "C134", "title": "the positive weights of the candidates do not matter", "statement": "The result of equivalence_class depends only on which edges the candidates have: replacing one candidate by another with the same edges and other positive weights selects the same graph.", "quantifier": "all data sets, settings and candidates with positive weights", "why_tests_cant": "needs two candidates with the same edges of which the second is selected, on data where the copy in the cache scores differently", "anchors": ["utlvce/main.py:equivalence_class", "utlvce/score.py:_Cache", "utlvce/model.py:copy"]}
{"id": "C135", "title": "pruning does not depend on the sign of the weights", "statement": "With prune_graph=True the graphs obtained by removing edges of a candidate are searched, whatever the non-zero weights of its edges, so that the sign of the weights does not change the result.", "quantifier": "all data sets, settings and acyclic candidates with non-zero weights", "why_tests_cant": "the tests only prune 0/1 candidates; no error is raised when the loop is skipped", "anchors": ["utlvce/main.py:_prune_graphs", "utlvce/main.py:equivalence_class"]}
{"id": "C136", "title": "the default numbers of latents do not depend on a common unit", "statement": "scree_selection returns the same number when all singular values are multiplied by a positive factor and shifted by a constant, and the default numbers of latent variables are the same when all variables of the first environment are scaled by the same positive factor and each is shifted by its own constant.", "quantifier": "all lists of more than two singular values with a positive pooled variance at each split, all samples, factors and shifts", "why_tests_cant": "a test compares finitely many scalings; the claim needs that the factor moves the likelihood of every split by the same amount", "anchors": ["utlvce/main.py:scree_selection", "utlvce/main.py:_fit"]}
{"id": "C137", "title": "the default numbers of latents do not depend on the units of the variables", "statement": "Measuring each variable in its own other unit does not change the default numbers of latent variables.", "quantifier": "all samples of the first environment and all positive factors of the variables", "why_tests_cant": "the tests do not rescale single variables; the change needs singular values where the largest gap moves", "anchors": ["utlvce/main.py:scree_selection", "utlvce/main.py:_fit"]}
{"id": "C138", "title": "more edges, targets or latents explain the training data at least as well", "statement": "For graphs A within A', targets I within I' and l <= l' latents, every admissible model for (A, I, l) has an admissible model for (A', I', l') with the same noise covariances and the same score on all data, so the best score for (A', I', l') is at most that for (A, I, l). If the fits are optimal, the training scores therefore never decrease along the chains of graphs and of targets that pruning searches.", "quantifier": "all models, graphs, targets, numbers of latents, bounds and data; all runs of _prune_graphs and _prune_I without threshold", "why_tests_cant": "the claim compares optima over infinite parameter sets; a test only sees single fits", "anchors": ["utlvce/model.py:Model.score", "utlvce/score.py:Score.score_dag", "utlvce/main.py:_prune_graphs", "utlvce/main.py:_prune_I"]}
{"id": "C139", "title": "psi_fixed makes no difference with a single environment", "statement": "With one environment score_dag, equivalence_class and equivalence_class_w_ges have the same results, including exceptions, for psi_fixed=True and psi_fixed=False.", "quantifier": "all data, arguments, histories of calls, candidates and random draws, for one environment", "why_tests_cant": "the equality is about all fits, all searches and all data", "anchors": ["utlvce/score.py:_solve_for_rest", "utlvce/score.py:Score.score_dag", "utlvce/main.py:equivalence_class", "utlvce/main.py:equivalence_class_w_ges"]}
{"id": "C140", "title": "with a single environment the returned class is one DAG", "statement": "With one environment the intervention targets have no influence on score_dag. So equivalence_class and equivalence_class_w_ges (B_solver='cvx') report all variables, or all but one, as targets; the returned I-CPDAG is the DAG of the returned model and the class has no other member, although another direction of the edges may fit equally well.", "quantifier": "all non-empty samples, candidates, arguments with B_solver='cvx' and sorting functions, for one environment", "why_tests_cant": "the result is the same for all data and candidates; a test cannot see that ties between targets always occur", "anchors": ["utlvce/score.py:Score.score_dag", "utlvce/main.py:_prune_I", "utlvce/main.py:_best_scoring", "utlvce/main.py:equivalence_class", "utlvce/utils.py:dag_to_icpdag"]}
{"id": "C141", "title": "psi_fixed gives all hidden variables the same variance", "statement": "With psi_fixed=True the hidden variables of every model returned by score_dag have all the same variance, as documented.", "quantifier": "all data, DAGs, targets, numbers of hidden variables and arguments", "why_tests_cant": "invariant over unboundedly many gradient steps, for all numbers of hidden variables; the averaging is over environments only, so that a test with one hidden variable or one that looks at the columns of psis passes", "anchors": ["utlvce/score.py:_solve_for_rest", "utlvce/score.py:Score", "utlvce/main.py:equivalence_class"]}
{"id": "C142", "title": "all DAGs of the returned class explain the data as well as the returned model", "statement": "Every DAG of the class returned by equivalence_class or equivalence_class_w_ges has parameters that satisfy the constraints (targets, psi_max, psi_fixed), have the same latent variances and noise variances of the targets, and entail the same covariances and so the same score on all data as the returned parameters; and if the returned parameters are optimal for some data, so are those.", "quantifier": "all data, candidates, arguments and random draws, all DAGs of the class and all further data", "why_tests_cant": "quantifies over all members of classes of any size, over the parameters of each and over all data", "anchors": ["utlvce/main.py:equivalence_class", "utlvce/main.py:equivalence_class_w_ges", "utlvce/utils.py:dag_to_icpdag", "utlvce/model.py:Model.score"]}
{"id": "C143", "title": "psi_max limits the change of the variances of the hidden variables", "statement": "The documentation calls psi_max the maximum allowed change in variance between environments for the hidden variables: models whose hidden variances change more should be excluded and those that change less should not. Refuted: for every psi_max > 0 every unconstrained model has a counterpart within the bound with the same weights, noise variances, covariances, scores and relative changes, so the best scores agree; and with psi_max <= 1 and no zero among nums_latent neither entry point returns. The variances of the hidden variables of a returned model do change by less than psi_max.", "quantifier": "all bounds, models, data, candidates, arguments and random draws", "why_tests_cant": "quantifies over all models and all bounds; that a run never returns cannot be tested", "anchors": ["utlvce/main.py:equivalence_class", "utlvce/main.py:equivalence_class_w_ges", "utlvce/score.py:_solve_for_rest", "utlvce/model.py:Model.score"]}
{"id": "C144", "title": "a result is reproduced from the returned DAG and number of latents", "statement": "If the fits do not depend on random draws (B_solver='cvx'), then calling equivalence_class on the same data with the DAG of the returned model as the only candidate, nums_latent = [the returned number of latents] and prune_edges=False returns the same I-CPDAG, targets and model as the original call of equivalence_class or equivalence_class_w_ges, whatever its candidates, numbers of latents, pruning and random_state were.", "quantifier": "all data, candidates, arguments and seeds", "why_tests_cant": "the original call shares one cache among all candidates and pruned graphs; that none of its contents reaches the result has to hold for all histories", "anchors": ["utlvce/main.py:_fit", "utlvce/main.py:_prune_graphs", "utlvce/main.py:_prune_I", "utlvce/score.py:Score.score_dag"]}
{"id": "C145", "title": "more candidates, more numbers of latents and pruning do not worsen the validation score", "statement": "If the fits do not depend on random draws (B_solver='cvx'), then of two calls of equivalence_class on the same data, where the second has all candidates and numbers of latents of the first and possibly others, in any order, and prunes if the first does, the model selected by the second has at most the validation score of that selected by the first.", "quantifier": "all data, candidates, arguments and seeds", "why_tests_cant": "the models of repeated graphs are copies from a shared cache with other scores (C127), so that monotonicity depends on the whole sequence of fitted graphs", "anchors": ["utlvce/main.py:_fit", "utlvce/main.py:_prune_graphs", "utlvce/main.py:_best_scoring", "utlvce/score.py:Score.score_dag"]}
{"id": "C146", "title": "exceptions of equivalence_class for invalid data", "statement": "equivalence_class raises TypeError if data is not a list of numpy.ndarray, and ValueError if it is such a list but not valid (different numbers of variables) or B_solver is unknown, as documented; a valid list is accepted. This is false: a tuple or an array of samples is accepted, since split_data turns it into lists before Score checks the type; arrays with one dimension raise IndexError.", "quantifier": "all Python values of data (sequences of arrays, lists or values without a length, and other values) and all folds", "why_tests_cant": "the exception depends on the order of the checks in three functions and on what each passes on, for every kind of value; tests try a few", "anchors": ["utlvce/main.py:_fit", "utlvce/utils.py:split_data", "utlvce/score.py:Score.__init__"]}
{"id": "C147", "title": "split_data accepts ratios that sum to 1", "statement": "split_data (and with it equivalence_class) accepts all ratios that sum to 1, computing with floats: it raises ValueError only if the ratios do not sum to 1, and fold i gets round(n*ratio_i) rows. This is false: the sum is compared with == after rounding, so that 0.35, 0.30, 0.35 are rejected, in whatever order numpy adds them. It holds for ratios like the default ones, which are small multiples of a power of 2 (no operation rounds).", "quantifier": "all floats, orders of summation, data and shuffles", "why_tests_cant": "whether the rounded sum is 1 depends on the last bit of each ratio and on the order of the additions; of 4851 triples of two-digit decimals only 26 fail in both orders", "anchors": ["utlvce/utils.py:split_data", "utlvce/main.py:_fit"]}
{"id": "C148", "title": "scaled_latent_incoherence is the incoherence times the maximum degree", "statement": "Model.scaled_latent_incoherence returns the latent incoherence scaled by the maximum degree of the moral graph, as documented, where the incoherence of an environment is the square root of the largest diagonal entry of the projection on the latent effects (comment in the code). This is false: the square root is not taken, so that c^2 d is returned instead of c d, which is smaller unless d=0, c=0 or c=1. With linearly dependent latent effects the value is not even determined by the model: it depends on the singular value decomposition.", "quantifier": "all models with positive numbers of variables and environments, all singular value decompositions", "why_tests_cant": "the value is plausible with and without the square root, and numpy returns one decomposition of many", "anchors": ["utlvce/model.py:Model.scaled_latent_incoherence"]}
{"id": "C149", "title": "the deviation metrics do not depend on the units of the variables", "statement": "The assumption deviation metrics of a model (intervention_strength, scaled_latent_incoherence) do not change if the variables are measured in other units. This is false for both: the strength of variable j is multiplied by c_j^2, so that any variable with interventions is the strongest in some units, and the latent effects are divided by c_j, which changes the incoherence.", "quantifier": "all models and units", "why_tests_cant": "tests compute the metrics in one unit; the dependence is a property of the formula for all units", "anchors": ["utlvce/model.py:Model.intervention_strength", "utlvce/model.py:Model.scaled_latent_incoherence"]}
{"id": "C150", "title": "scaled_latent_incoherence does not depend on the choice of the latents nor on the order of the environments", "statement": "If the latent effects are linearly independent in every environment, then scaled_latent_incoherence is the same for all models that only differ by an invertible linear map of the latents (permutation, sign, scale, rotation) and by the order of the environments, whatever singular value decompositions are computed.", "quantifier": "all models with independent latent effects, all invertible maps of the latents, all permutations of the environments, all singular value decompositions", "why_tests_cant": "needs the uniqueness of the orthogonal projection for all bases of the space of the latent effects", "anchors": ["utlvce/model.py:Model.scaled_latent_incoherence"]}
