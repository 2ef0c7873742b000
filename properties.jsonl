{"id": "C01", "title": "max_cliques enumerates the maximal cliques exactly", "statement": "For a symmetric adjacency matrix on at least one vertex, iterating max_cliques(nbrhood) to the end produces every maximal clique of the graph exactly once (as a vertex set) and produces nothing that is not a maximal clique; self loops on the diagonal are ignored.", "quantifier": "every symmetric 0/1 matrix of every size, and every order in which Python sets may hand out their elements (set.pop and iteration order in max)", "why_tests_cant": "tests fix a handful of graphs and one CPython hash order; completeness and uniqueness range over all graphs and all orders", "anchors": ["medil/ecc_algorithms.py:max_cliques"]}
{"id": "C02", "title": "max_cliques always terminates", "statement": "Iterating max_cliques on any square 0/1 matrix (symmetric or not) stops after finitely many steps, never yields a clique containing the None placeholder and never lets an exception escape; on the empty matrix it yields nothing.", "quantifier": "every square 0/1 matrix, every set order", "why_tests_cant": "the loop is `while True` ended by an IndexError; tests only see that it ended on the inputs tried", "anchors": ["medil/ecc_algorithms.py:max_cliques"]}
{"id": "C03", "title": "the heuristic recovers every one-pure-child structure", "statement": "If B is a latent-by-measurement structure in which every latent has a measurement child of its own (one pure child) and every measurement has a parent, then find_heuristic_1pc applied to the undirected dependence graph of B (with either diagonal) returns exactly the rows of B, in some order, and raises nothing.", "quantifier": "every one-pure-child structure of every size, both diagonals, every set order inside the independent-set search", "why_tests_cant": "a universally quantified identifiability claim over all structures; tests try a few", "anchors": ["medil/ecc_algorithms.py:find_heuristic_1pc", "medil/models.py:GaussianMCM._compute_biadj"]}
{"id": "C04", "title": "whatever find_heuristic_1pc returns explains every dependence", "statement": "Whenever find_heuristic_1pc returns a matrix for a symmetric graph, every adjacent pair of measurements shares a latent, every measurement has a latent, there is one latent per member of a maximum independent set and each latent's children are exactly the closed neighbourhood of its member; the final 'Problem with...' exception is never raised.", "quantifier": "every symmetric graph of every size and every set order", "why_tests_cant": "quantifies over all graphs and all maximum independent sets the search may end on", "anchors": ["medil/ecc_algorithms.py:find_heuristic_1pc"]}
{"id": "C05", "title": "find_heuristic_1pc returns a structure for every dependence graph", "statement": "For every symmetric graph on at least one vertex find_heuristic_1pc returns a biadjacency matrix instead of raising.", "quantifier": "every symmetric graph, every set order", "why_tests_cant": "a crash on some graph is only excluded by covering all graphs; the tests only use graphs where the first pass covers everything", "anchors": ["medil/ecc_algorithms.py:find_heuristic_1pc"]}
{"id": "C06", "title": "the heuristic's structure induces the given graph", "statement": "When find_heuristic_1pc returns, two distinct measurements share a latent only if they are adjacent in the input graph (each latent's children form a clique).", "quantifier": "every symmetric graph, every set order", "why_tests_cant": "needs all graphs; tests only compare on one-pure-child inputs", "anchors": ["medil/ecc_algorithms.py:find_heuristic_1pc"]}
{"id": "C07", "title": "the heuristic never uses more latents than any exact cover", "statement": "The number of latents returned by find_heuristic_1pc is at most the number of cliques in any family of cliques of the graph that covers all vertices, hence at most the size of any edge clique cover in which every vertex occurs.", "quantifier": "every symmetric graph, every competing family of cliques", "why_tests_cant": "minimality claims quantify over all competitors", "anchors": ["medil/ecc_algorithms.py:find_heuristic_1pc"]}
{"id": "C08", "title": "find_clique_min_cover terminates without raising", "statement": "For every symmetric 0/1 matrix with unit diagonal and at least one vertex find_clique_min_cover returns after finitely many steps and raises no exception.", "quantifier": "every symmetric unit-diagonal matrix of every size, every set order", "why_tests_cant": "`while the_cover is None` and `while self.reducing` have no syntactic bound; only a measure argument covers all graphs", "anchors": ["medil/ecc_algorithms.py:find_clique_min_cover", "medil/ecc_algorithms.py:branch", "medil/graph.py:ReducibleUndDepGraph.reduzieren", "medil/graph.py:ReducibleUndDepGraph.choose_nbrhood"]}
{"id": "C09", "title": "every latent found by the exact search is a clique", "statement": "Every row of the matrix returned by find_clique_min_cover is a non-empty clique of the input graph, so no dependence is invented.", "quantifier": "every symmetric unit-diagonal matrix, every set order", "why_tests_cant": "soundness of a branch-and-reduce search over all graphs and all search paths", "anchors": ["medil/ecc_algorithms.py:find_clique_min_cover", "medil/ecc_algorithms.py:branch", "medil/graph.py:ReducibleUndDepGraph.rule_2", "medil/graph.py:ReducibleUndDepGraph.reconstruct_cover"]}
{"id": "C10", "title": "every measurement gets a latent from the exact search", "statement": "Every column of the matrix returned by find_clique_min_cover contains a True, and a vertex that the search left out is appended as a singleton row, in vertex order, after the cliques.", "quantifier": "every symmetric unit-diagonal matrix, every set order", "why_tests_cant": "all graphs, all search paths", "anchors": ["medil/ecc_algorithms.py:add_isolated_verts", "medil/ecc_algorithms.py:find_clique_min_cover"]}
{"id": "C11", "title": "find_clique_min_cover returns an edge clique cover", "statement": "Every edge of the input graph lies inside some row returned by find_clique_min_cover.", "quantifier": "every symmetric unit-diagonal matrix", "why_tests_cant": "tests check five example graphs; the claim is about all graphs", "anchors": ["medil/ecc_algorithms.py:find_clique_min_cover", "medil/ecc_algorithms.py:branch", "medil/graph.py:ReducibleUndDepGraph.rule_1", "medil/graph.py:ReducibleUndDepGraph.rule_3"]}
{"id": "C12", "title": "find_clique_min_cover returns a minimum cover", "statement": "When the rows returned by find_clique_min_cover do cover all edges, no edge clique cover (with every vertex in some clique) has fewer rows.", "quantifier": "every symmetric unit-diagonal matrix and every competing cover", "why_tests_cant": "minimality quantifies over all competitors", "anchors": ["medil/ecc_algorithms.py:find_clique_min_cover", "medil/ecc_algorithms.py:branch", "medil/graph.py:ReducibleUndDepGraph.choose_nbrhood"]}
{"id": "C13", "title": "the exact search recovers every one-pure-child structure", "statement": "If B is a one-pure-child structure in which every measurement has a parent, find_clique_min_cover on the graph of B (unit diagonal) returns exactly the rows of B in some order, and no edge clique cover of that graph is smaller.", "quantifier": "every one-pure-child structure, every order of the edge set and every other set order", "why_tests_cant": "identifiability over all structures", "anchors": ["medil/ecc_algorithms.py:find_clique_min_cover", "medil/graph.py:ReducibleUndDepGraph.rule_1", "medil/graph.py:ReducibleUndDepGraph.rule_2"]}
{"id": "C14", "title": "edgeless graphs are returned as they are", "statement": "On a graph without edges find_clique_min_cover returns the input matrix itself, which for a unit diagonal is the cover by singletons.", "quantifier": "every edgeless matrix of every size", "why_tests_cant": "all sizes", "anchors": ["medil/ecc_algorithms.py:find_clique_min_cover", "medil/graph.py:UndirectedDependenceGraph.make_aux"]}
{"id": "C15", "title": "an estimated dependence graph can be passed to the exact search", "statement": "The graph returned by estimate_UDG or GaussianMCM (zero diagonal) can be given to find_clique_min_cover.", "quantifier": "every symmetric zero-diagonal matrix with an edge", "why_tests_cant": "about every graph the estimators can produce", "anchors": ["medil/ecc_algorithms.py:find_clique_min_cover", "medil/independence_testing.py:estimate_UDG", "medil/graph.py:UndirectedDependenceGraph"]}
{"id": "C16", "title": "edge numbering is a bijection", "statement": "After make_aux, get_idx numbers the pairs u<v by 0..n(n-1)/2-1 without gaps or repetitions and get_edge is its inverse.", "quantifier": "every number of vertices and every pair", "why_tests_cant": "an index formula over all sizes", "anchors": ["medil/graph.py:UndirectedDependenceGraph.make_aux"]}
{"id": "C17", "title": "make_aux records common neighbourhoods and their edge counts", "statement": "After make_aux on a symmetric unit-diagonal matrix, the row of common_neighbors for an edge is exactly the set of vertices adjacent or equal to both ends, the row of a non-edge is empty, nbrhood_edge_counts is the number of edges inside that set, and extant_edges_idx lists every edge once.", "quantifier": "every symmetric unit-diagonal matrix with an edge, every pair, every set order", "why_tests_cant": "data-structure invariant over all graphs", "anchors": ["medil/graph.py:UndirectedDependenceGraph.make_aux"]}
{"id": "C18", "title": "edge insertion and removal keep the graph consistent", "statement": "After any sequence of add_edges and rm_edges calls on a symmetric matrix, the matrix is symmetric, the last operation naming a pair decides whether it is an edge, unnamed pairs are unchanged and num_edges is the number of edges.", "quantifier": "every initial symmetric matrix and every finite sequence of add_edges/rm_edges with in-range endpoints", "why_tests_cant": "histories of unbounded length", "anchors": ["medil/graph.py:UndirectedDependenceGraph.add_edges", "medil/graph.py:UndirectedDependenceGraph.rm_edges"]}
{"id": "C19", "title": "reduction keeps the neighbourhood edge counts exact", "statement": "After rule_1 every nbrhood_edge_counts entry is the number of edges of the original graph inside the updated common neighbourhood.", "quantifier": "every state reachable by the reduction rules", "why_tests_cant": "an invariant over all histories of reductions", "anchors": ["medil/graph.py:ReducibleUndDepGraph.rule_1"]}
{"id": "C20", "title": "Rule 2 only adds cliques that cover something new", "statement": "In every state reachable in the search, when rule_2 extends the cover, the added row is a clique of the original graph containing both ends of an edge that was uncovered before and every edge inside it is covered afterwards; nothing else changes colour.", "quantifier": "every graph, every reachable search state, every set order", "why_tests_cant": "inductive invariant over all histories", "anchors": ["medil/graph.py:ReducibleUndDepGraph.rule_2", "medil/graph.py:ReducibleUndDepGraph.cover_edges"]}
{"id": "C21", "title": "vertices deleted by Rule 3 are put back", "statement": "A vertex deleted by rule_3 during find_clique_min_cover is re-inserted by reconstruct_cover into the cover that is returned, so that its edges are covered.", "quantifier": "every symmetric unit-diagonal matrix", "why_tests_cant": "whether the reconstruction step is ever reached with something to do depends on all search paths", "anchors": ["medil/graph.py:ReducibleUndDepGraph.rule_3", "medil/graph.py:ReducibleUndDepGraph.reconstruct_cover", "medil/ecc_algorithms.py:branch"]}
{"id": "C22", "title": "a run without Rule 3 and without the depth limit is a correct cover", "statement": "If a run of find_clique_min_cover neither deletes a vertex by Rule 3 nor returns at the iteration limit, the returned rows are an edge clique cover of the input.", "quantifier": "every symmetric unit-diagonal matrix, every set order", "why_tests_cant": "all graphs and all search trees", "anchors": ["medil/ecc_algorithms.py:find_clique_min_cover", "medil/ecc_algorithms.py:branch"]}
{"id": "C23", "title": "the .nde file determines the graph", "statement": "The text written by convert_to_nde determines the adjacency matrix: reading back the vertex count and the edge lines reproduces the symmetric matrix, and the degree lines agree with it.", "quantifier": "every symmetric matrix of every size", "why_tests_cant": "a round trip over all graphs", "anchors": ["medil/graph.py:UndirectedDependenceGraph.convert_to_nde"]}
{"id": "C24", "title": "sfd is symmetric and blind to latent order", "statement": "sfd(a,b)=sfd(b,a) in both components, permuting the latents (rows) of either argument changes nothing, both components are non-negative and they are zero when one argument is a row permutation of the other.", "quantifier": "every pair of 0/1 structures over the same measurements, every permutation", "why_tests_cant": "all matrices and permutations", "anchors": ["medil/evaluate.py:sfd", "medil/evaluate.py:recover_ug"]}
{"id": "C25", "title": "sfd dominates the Hamming distance", "statement": "sfd is at least twice ushd; in particular sfd = 0 forces ushd = 0, and ushd counts exactly the unordered pairs of measurements on which the two induced graphs differ.", "quantifier": "every pair of 0/1 structures over the same measurements", "why_tests_cant": "an inequality over all matrices", "anchors": ["medil/evaluate.py:sfd"]}
{"id": "C26", "title": "zero sfd means the same structure", "statement": "If sfd(a,b) is (0,0) then b is a with its latents reordered.", "quantifier": "every pair of structures", "why_tests_cant": "an identifiability claim over all pairs", "anchors": ["medil/evaluate.py:sfd"]}
{"id": "C27", "title": "on one-pure-child structures zero Hamming distance identifies the structure", "statement": "If two one-pure-child structures without childless measurements have ushd 0, one is a row permutation of the other (and so sfd is 0 too).", "quantifier": "every pair of one-pure-child structures", "why_tests_cant": "identifiability over all pairs", "anchors": ["medil/evaluate.py:sfd"]}
{"id": "C28", "title": "ushd is a distance on induced graphs", "statement": "ushd satisfies ushd(a,c) <= ushd(a,b)+ushd(b,c) and is zero iff the induced graphs coincide.", "quantifier": "every triple of structures over the same measurements", "why_tests_cant": "triangle inequality over all triples", "anchors": ["medil/evaluate.py:sfd"]}
{"id": "C29", "title": "recover_ug is the induced dependence graph", "statement": "recover_ug(B)[i,j] is True exactly when i and j are distinct and share a parent in B; the result is symmetric with a False diagonal.", "quantifier": "every 0/1 matrix", "why_tests_cant": "all matrices", "anchors": ["medil/evaluate.py:recover_ug"]}
{"id": "C30", "title": "min_perm_squared_l2_dist returns an optimal row matching", "statement": "The returned array is a permutation of the rows of predicted_W, the returned number is its squared distance to true_W padded with zero rows, no permutation has a smaller distance, and the returned permutation is the lexicographically first optimal one.", "quantifier": "every pair of real matrices with at least as many predicted as true rows", "why_tests_cant": "optimality quantifies over all n! permutations of all sizes", "anchors": ["medil/evaluate.py:min_perm_squared_l2_dist", "medil/evaluate.py:min_perm_squared_l2_dist_abs"]}
{"id": "C31", "title": "permutation distances are blind to what cannot be identified", "statement": "Reordering the rows of predicted_W leaves the minimum of both functions unchanged, flipping the sign of any rows leaves min_perm_squared_l2_dist_abs unchanged, the minimum is zero exactly when the (absolute) rows agree with the padded (absolute) true rows up to order, and the abs version never exceeds the plain one.", "quantifier": "every pair of matrices, every permutation, every sign pattern", "why_tests_cant": "all matrices and symmetries", "anchors": ["medil/evaluate.py:min_perm_squared_l2_dist", "medil/evaluate.py:min_perm_squared_l2_dist_abs"]}
{"id": "C32", "title": "generated one-pure-child structures are one-pure-child structures", "statement": "biadj(num_meas, density, one_pure_child=True, num_latent=L) with 1<=L<=num_meas and density in [0,1] returns an L x num_meas matrix in which every latent has a pure child, every measurement has a parent and the number of edges is num_meas + round(density*(num_meas-L)*(L-1)).", "quantifier": "every size, density and every outcome of the random generator", "why_tests_cant": "all random outcomes", "anchors": ["medil/sample.py:biadj"]}
{"id": "C33", "title": "generate, forget, recover", "statement": "For every matrix B that biadj(..., one_pure_child=True) can return, both find_heuristic_1pc and find_clique_min_cover applied to its dependence graph return B up to the order of latents.", "quantifier": "every size, density, random outcome and set order", "why_tests_cant": "composition over all random outcomes", "anchors": ["medil/sample.py:biadj", "medil/ecc_algorithms.py:find_heuristic_1pc", "medil/ecc_algorithms.py:find_clique_min_cover"]}
{"id": "C34", "title": "Erdos-Renyi structures induce the graph they were generated from", "statement": "With one_pure_child=False the graph induced by the returned matrix is the random graph that was drawn, with round(density*n(n-1)/2) edges.", "quantifier": "every size, density and random outcome", "why_tests_cant": "all random graphs", "anchors": ["medil/sample.py:biadj"]}
{"id": "C35", "title": "num_latent is refused without one_pure_child", "statement": "biadj(one_pure_child=False, num_latent=k) raises ValueError for every k other than 0, before drawing anything from the generator, and impossible sizes with one_pure_child=True raise ValueError instead of returning a malformed matrix.", "quantifier": "every size, density and k", "why_tests_cant": "all argument values", "anchors": ["medil/sample.py:biadj"]}
{"id": "C36", "title": "random parameters respect the structure", "statement": "mcm(biadj=B) gives weights that are zero outside B and of magnitude in [0.5,2) on B, error variances in [0.5,2) and error means in (-2,2), with the weights placed in row-major order.", "quantifier": "every boolean structure and every outcome of the generator", "why_tests_cant": "all random outcomes", "anchors": ["medil/sample.py:mcm"]}
{"id": "C37", "title": "mcm is reproducible from its rng", "statement": "Two calls mcm(rng=r, num_meas=n) with generators in the same state return the same model, whatever happened before.", "quantifier": "every history of earlier calls", "why_tests_cant": "histories of calls against shared module-level default generators", "anchors": ["medil/sample.py:mcm", "medil/sample.py:biadj", "medil/models.py:MedilCausalModel.__init__"]}
{"id": "C38", "title": "estimated dependence graphs are simple undirected graphs", "statement": "For every supported test method the matrix returned by estimate_UDG is symmetric with a False diagonal (for a user-supplied p-value matrix: whenever that matrix is symmetric), and it does not modify the supplied p-values.", "quantifier": "every sample, every p-value function, every significance level, every worker schedule", "why_tests_cant": "all samples and test outcomes", "anchors": ["medil/independence_testing.py:estimate_UDG"]}
{"id": "C39", "title": "estimate_UDG is monotone in the significance level", "statement": "Raising significance_level never removes an edge.", "quantifier": "every sample and every pair of levels", "why_tests_cant": "all samples and levels", "anchors": ["medil/independence_testing.py:estimate_UDG"]}
{"id": "C40", "title": "dcov is the sample distance covariance", "statement": "dcov(samples)[0][i,j] is the (squared) sample distance covariance of features i and j: the mean over all ordered pairs of observations of the product of the doubly centred distances.", "quantifier": "every sample matrix", "why_tests_cant": "an identity over all samples", "anchors": ["medil/independence_testing.py:dcov"]}
{"id": "C41", "title": "dcov and the dcov_fast graph do not depend on units", "statement": "dcov is symmetric, invariant under shifting features and under reordering observations, and scaling features i, j by a_i, a_j scales entry (i,j) by |a_i a_j|; hence the graph of estimate_UDG(method='dcov_fast') is unchanged by shifting and non-zero rescaling of features, and relabelling features relabels the graph.", "quantifier": "every sample, shift, scale and permutation", "why_tests_cant": "all samples and transformations", "anchors": ["medil/independence_testing.py:dcov", "medil/independence_testing.py:estimate_UDG"]}
{"id": "C42", "title": "relabelling features relabels the xicor graph", "statement": "Permuting the columns of the sample permutes the graph returned by estimate_UDG(method='xicor').", "quantifier": "every sample and permutation", "why_tests_cant": "all samples and permutations", "anchors": ["medil/independence_testing.py:estimate_UDG", "medil/independence_testing.py:xicorr"]}
{"id": "C43", "title": "xicorr depends on ranks only", "statement": "xicorr(x,y) is unchanged under strictly increasing transformations of x and of y, and equals (n-2)/(n+1) whenever x and y are tie-free and y is a strictly monotone function of x.", "quantifier": "every pair of samples of every size and every increasing transformation", "why_tests_cant": "all samples", "anchors": ["medil/independence_testing.py:_xicorr", "medil/independence_testing.py:xicorr"]}
{"id": "C44", "title": "xicorr reports no dependence on a constant", "statement": "If y is constant, xicorr(x,y) does not report dependence (its coefficient is not positive).", "quantifier": "every x and every constant y of length at least two", "why_tests_cant": "all samples", "anchors": ["medil/independence_testing.py:_xicorr", "medil/independence_testing.py:xicorr"]}
{"id": "C45", "title": "unsupported test methods fail loudly and identically", "statement": "estimate_UDG with method 'g-test' or an unknown method name never returns a graph.", "quantifier": "every sample and every method string", "why_tests_cant": "all strings", "anchors": ["medil/independence_testing.py:estimate_UDG"]}
{"id": "C46", "title": "fitted weights respect the structure", "statement": "After GaussianMCM.fit, whatever the optimizer returned, biadj_weights is zero exactly off the structure's support except where the optimizer returned zero, weights are placed in the order the objective used, error_variances has one entry per measurement and the objective evaluated at the stored parameters is the optimizer's objective value.", "quantifier": "every structure, dataset and optimizer result", "why_tests_cant": "all optimizer outcomes", "anchors": ["medil/models.py:GaussianMCM.fit"]}
{"id": "C47", "title": "fitting depends only on the data given", "statement": "GaussianMCM.fit(dataset) on a model created without structure yields the structure estimated from that dataset, whatever was fitted before.", "quantifier": "every history of fit calls", "why_tests_cant": "histories of calls", "anchors": ["medil/models.py:GaussianMCM.fit", "medil/models.py:GaussianMCM._compute_biadj", "medil/models.py:GaussianMCM._estimate_udg"]}
{"id": "C48", "title": "a structure given by the user is never changed by fitting", "statement": "If a model is created with a non-empty biadj (or udg), no sequence of fit and sample calls, including calls that raise, changes it; a given udg is used instead of an estimated one.", "quantifier": "every history of fit/sample calls with every outcome", "why_tests_cant": "histories of calls", "anchors": ["medil/models.py:GaussianMCM.fit", "medil/models.py:GaussianMCM._compute_biadj"]}
{"id": "C49", "title": "GaussianMCM's graph estimate does not depend on units", "statement": "Rescaling the features of the dataset does not change the dependence graph estimated by GaussianMCM; the estimate is symmetric with a False diagonal.", "quantifier": "every dataset and scale", "why_tests_cant": "all datasets", "anchors": ["medil/models.py:GaussianMCM._estimate_udg"]}
{"id": "C50", "title": "fitted error variances are variances", "statement": "GaussianMCM.fit yields non-negative error_variances when the optimizer finds the exact optimum.", "quantifier": "every positive definite sample covariance and every optimum", "why_tests_cant": "all covariance matrices", "anchors": ["medil/models.py:GaussianMCM.fit"]}
{"id": "C51", "title": "the least squares objective is exact and rotation-blind", "statement": "The objective minimised by GaussianMCM.fit is zero exactly when the sample covariance equals W^T W + diag(err) and is unchanged when latents are reordered or their signs flipped; the unpenalised part of DevMedil's LSE objective has the same invariance.", "quantifier": "every covariance, weight matrix, permutation and sign pattern", "why_tests_cant": "all matrices", "anchors": ["medil/models.py:GaussianMCM.fit", "medil/models.py:DevMedil.fit_penalized_lse"]}
{"id": "C52", "title": "DevMedil can sample after it was fitted", "statement": "After a successful DevMedil.fit(dataset, method=m), sample(n, method=m) returns a dataset.", "quantifier": "every history of fit calls", "why_tests_cant": "histories of calls", "anchors": ["medil/models.py:DevMedil.fit", "medil/models.py:DevMedil.sample"]}
{"id": "C53", "title": "DevMedil reports the parameters it optimised", "statement": "After DevMedil.fit(method='lse'), validation_lse on the training data with the same penalties equals the optimizer's final objective value; after method='mle' the same holds for validation_mle.", "quantifier": "every dataset and optimizer result", "why_tests_cant": "all optimizer outcomes", "anchors": ["medil/models.py:DevMedil.fit_penalized_lse", "medil/models.py:DevMedil.validation_lse", "medil/models.py:DevMedil.validation_mle"]}
{"id": "C54", "title": "every training epoch uses the reparameterisation trick", "statement": "During NeuroCausalFactorAnalysis.fit every training batch of every epoch is passed through the network in training mode.", "quantifier": "every number of epochs and batches", "why_tests_cant": "all run lengths; the mode flag is history dependent", "anchors": ["medil/models.py:NeuroCausalFactorAnalysis._train_vae", "medil/models.py:NeuroCausalFactorAnalysis._valid_vae", "medil/vae.py:VariationalAutoencoder.latent_sample"]}
{"id": "C55", "title": "mini-batches partition the data and loss histories have one entry per epoch", "statement": "Each epoch visits every training row exactly once in order, in batches of at most batch_size rows none of which is empty; each of the four histories in model.loss has num_epochs entries; an empty split raises ZeroDivisionError instead of recording NaN.", "quantifier": "every dataset size, batch size and number of epochs", "why_tests_cant": "all sizes", "anchors": ["medil/models.py:NeuroCausalFactorAnalysis._data_loader", "medil/models.py:NeuroCausalFactorAnalysis._train_vae"]}
{"id": "C56", "title": "the VAE loss is bounded below", "statement": "The KL term is non-negative and zero only at mu=0, logvar=0; the validation loss is non-negative for beta>=0 and the training loss adds only non-negative penalties.", "quantifier": "every batch and network output", "why_tests_cant": "a real inequality over all inputs", "anchors": ["medil/models.py:NeuroCausalFactorAnalysis._elbo_gaussian"]}
{"id": "C57", "title": "decoder outputs only see their own hidden block", "statement": "Output j of the decoder depends on the first layer only through the hidden units of block j: if the first-layer weights of block j ignore latent k, output j does not depend on latent k, whatever the other weights, depth and width.", "quantifier": "every weight assignment, depth, width and latent input", "why_tests_cant": "all networks and inputs", "anchors": ["medil/vae.py:Decoder", "medil/vae.py:SparseLinear"]}
{"id": "C58", "title": "every decoder weight is a trainable parameter", "statement": "All weights used by Decoder.forward are among the parameters handed to the optimizer.", "quantifier": "every depth", "why_tests_cant": "about all depths; nn.Module registration rules", "anchors": ["medil/vae.py:Decoder.__init__", "medil/models.py:NeuroCausalFactorAnalysis._train_vae"]}
{"id": "C59", "title": "reported weights describe which latents influence a measurement", "statement": "If parameters.weights[k, units of measurement j] is zero, latent k does not influence the decoder's output for measurement j.", "quantifier": "every weight assignment", "why_tests_cant": "all networks", "anchors": ["medil/models.py:NeuroCausalFactorAnalysis.fit", "medil/vae.py:Decoder.forward"]}
{"id": "C60", "title": "the training log is inside the output directory", "statement": "For every path argument, the training log is written inside the directory given by path, next to the saved model.", "quantifier": "every path string", "why_tests_cant": "all strings", "anchors": ["medil/models.py:NeuroCausalFactorAnalysis.log", "medil/models.py:NeuroCausalFactorAnalysis.fit"]}
{"id": "C61", "title": "saved artefacts of one fit are consistent after a crash", "statement": "If the process dies at any point during fit, the files in the output directory all stem from the same fit.", "quantifier": "every crash point of every history of fits", "why_tests_cant": "all crash points", "anchors": ["medil/models.py:NeuroCausalFactorAnalysis.fit"]}
{"id": "C62", "title": "the DAG drawn for a structure is that structure", "statement": "get_dag_from_biadj returns a matrix whose only arcs lead from latent i to measurement j exactly when B[i,j], so it is acyclic and B can be read back from it.", "quantifier": "every structure", "why_tests_cant": "all matrices", "anchors": ["medil/visualize.py:get_dag_from_biadj"]}
{"id": "C63", "title": "the causal order used for sampling is a topological order", "statement": "compute_caus_order lists every latent and measurement exactly once with every latent before its children.", "quantifier": "every structure", "why_tests_cant": "all matrices", "anchors": ["scripts/developing.py:compute_caus_order", "scripts/developing.py:biadj_to_adj"]}
{"id": "C64", "title": "the heuristic is exact precisely on one-pure-child graphs", "statement": "find_heuristic_1pc returns a matrix all of whose rows are cliques of the input if and only if the input is the dependence graph of some one-pure-child structure.", "quantifier": "every symmetric graph on at least one vertex, every set order", "why_tests_cant": "an equivalence over all graphs and all set orders", "anchors": ["medil/ecc_algorithms.py:find_heuristic_1pc"]}
{"id": "C65", "title": "the exact search does not return on the empty graph", "statement": "On the 0-by-0 matrix find_clique_min_cover keeps incrementing num_cliques and never returns.", "quantifier": "every number of loop iterations, every set order", "why_tests_cant": "non-termination cannot be observed by a test", "anchors": ["medil/ecc_algorithms.py: find_clique_min_cover, branch", "medil/graph.py: ReducibleUndDepGraph"]}
{"id": "C66", "title": "reconstruct_cover never produces an answer", "statement": "In no run of find_clique_min_cover does the returned cover come from the reconstruct_cover call in branch: vertices removed by Rule 3 are never put back by that code path.", "quantifier": "every symmetric unit-diagonal matrix, every set order, every run", "why_tests_cant": "absence of a behaviour over all graphs", "anchors": ["medil/ecc_algorithms.py: find_clique_min_cover, branch", "medil/graph.py: ReducibleUndDepGraph"]}
{"id": "C67", "title": "zero sfd means equal parent counts", "statement": "The first component of sfd(a,b) is zero exactly when every pair of measurements has the same number of common parents in a and b, and every measurement the same number of parents.", "quantifier": "every pair of 0/1 structures over the same measurements", "why_tests_cant": "an equivalence over all structures", "anchors": ["medil/evaluate.py:sfd"]}
{"id": "C68", "title": "permutation distances use the true weights whatever the dtype of the prediction", "statement": "min_perm_squared_l2_dist compares predicted_W with the true weights also when predicted_W has an integer dtype.", "quantifier": "every integer prediction and every real true_W", "why_tests_cant": "the property ranges over all values and dtypes", "anchors": ["medil/evaluate.py:min_perm_squared_l2_dist"]}
{"id": "C69", "title": "permutation distances refuse impossible sizes", "statement": "More (and at least two) true rows than predicted rows raise ValueError, an empty prediction raises IndexError; no number is returned.", "quantifier": "every pair of such matrices", "why_tests_cant": "all sizes", "anchors": ["medil/evaluate.py:min_perm_squared_l2_dist", "medil/evaluate.py:min_perm_squared_l2_dist_abs"]}
{"id": "C70", "title": "dcov never exceeds half the distance covariance", "statement": "Twice dcov(samples)[0][i,j] is at most the sample distance covariance of features i and j, so the dcov_fast test is conservative.", "quantifier": "every sample matrix with at least one observation", "why_tests_cant": "an inequality over all samples (uses the triangle inequality on every observation)", "anchors": ["medil/independence_testing.py:dcov"]}
{"id": "C71", "title": "constant features are isolated by dcov_fast", "statement": "A feature with the same value in every observation has no edge in the graph of estimate_UDG(method='dcov_fast') (the statistic is 0/0).", "quantifier": "every sample, level and constant feature", "why_tests_cant": "all samples and levels", "anchors": ["medil/independence_testing.py:dcov", "medil/independence_testing.py:estimate_UDG"]}
{"id": "C72", "title": "GaussianMCM's graph is decided by the unit of measurement", "statement": "Two measurements are adjacent in the estimated graph exactly when cov(i,j)^2/(sd_i sd_j) exceeds 1-n^(-1/n); hence for every dataset with at least two observations there is a unit small enough that the estimated graph is empty and one large enough that every pair with non-zero sample covariance is adjacent.", "quantifier": "every dataset and every common scale", "why_tests_cant": "an existential over scales for every dataset; tests use one scale", "anchors": ["medil/models.py: GaussianMCM._estimate_udg"]}
{"id": "C73", "title": "outcome of the first GaussianMCM.fit", "statement": "GaussianMCM().fit(dataset) always comes to an end as far as structure learning is concerned: it raises TypeError leaving no structure, or the structure covers every measurement and every edge of the estimated graph and the fit succeeds whenever the optimizer returns.", "quantifier": "every dataset with at least two measurements, every set iteration order, every optimizer", "why_tests_cant": "quantifies over all data and iteration orders", "anchors": ["medil/models.py: GaussianMCM.fit, _compute_biadj"]}
{"id": "C74", "title": "sampled measurements depend on their parents only", "statement": "After a successful fit, GaussianMCM.sample(n) returns an n-by-measurements array in which measurement j is its error plus the weighted sum of the latents that are parents of j in the structure.", "quantifier": "every structure, dataset, optimizer result and draw of the generator", "why_tests_cant": "must hold for all draws and structures", "anchors": ["medil/models.py: GaussianMCM.sample"]}
{"id": "C75", "title": "the loss DevMedil reports after least squares overstates the optimum", "statement": "After DevMedil.fit(method='lse') the value of validation_lse on the training data differs from the optimizer's objective by the sum of 4*(S_jj - sum_k W_kj^2)*d_j over the negative error variances d_j; at an optimum it is too large by exactly 4 times the sum of the squares of the negative d_j.", "quantifier": "every dataset, penalty and optimizer result", "why_tests_cant": "quantifies over all optimizer results", "anchors": ["medil/models.py: DevMedil.fit_penalized_lse, validation_lse"]}
{"id": "C76", "title": "the random split is a 70/30 partition", "statement": "NeuroCausalFactorAnalysis.fit without split_idcs splits the standardised rows into two non-empty parts that together are all rows, trains on the rounded-down 70 percent, and raises ValueError when there are fewer than two rows.", "quantifier": "every dataset and every permutation drawn", "why_tests_cant": "all dataset sizes and draws, including floating-point rounding of 0.7*n", "anchors": ["medil/models.py:NeuroCausalFactorAnalysis.fit"]}
{"id": "C77", "title": "the network is trained on standardised data", "statement": "The rows NeuroCausalFactorAnalysis.fit hands to the network are those of the dataset standardised per column, however the split is chosen.", "quantifier": "every dataset and every split", "why_tests_cant": "all datasets and splits", "anchors": ["medil/models.py:NeuroCausalFactorAnalysis.fit"]}
{"id": "C78", "title": "fitting the neural model does not depend on the units of measurement", "statement": "Multiplying the columns of the dataset by positive factors and shifting them changes nothing about NeuroCausalFactorAnalysis.fit with a random split.", "quantifier": "every dataset, factor and shift", "why_tests_cant": "a relation between all pairs of runs", "anchors": ["medil/models.py:NeuroCausalFactorAnalysis.fit"]}
{"id": "C79", "title": "the loss is the negative evidence lower bound", "statement": "With beta = 1 and without penalties the loss of NeuroCausalFactorAnalysis is, up to a constant, the KL divergence minus the Gaussian log-likelihood of the batch.", "quantifier": "every batch and network output", "why_tests_cant": "an identity over all real inputs", "anchors": ["medil/models.py:NeuroCausalFactorAnalysis._elbo_gaussian"]}
{"id": "C80", "title": "noise enters the network in training mode only", "statement": "In evaluation mode the outputs of the network do not depend on the random numbers; in training mode the reconstruction does.", "quantifier": "every architecture, weight assignment, input and noise", "why_tests_cant": "all networks and inputs", "anchors": ["medil/vae.py:VariationalAutoencoder.forward", "medil/vae.py:VariationalAutoencoder.latent_sample"]}
{"id": "C81", "title": "the nonlinear sampler draws the structural equations", "statement": "sample_data_from_GAM_GP returns, for each measurement, the weighted sum of the sines of its latents plus noise: a function of the draws alone, not of uninitialised memory.", "quantifier": "every structure, coefficient matrix, draw and memory content", "why_tests_cant": "depends on memory contents no test controls", "anchors": ["scripts/developing.py:sample_data_from_GAM_GP"]}
{"id": "C82", "title": "random coefficients land on the edges", "statement": "random_B returns the transposed structure with each drawn coefficient on one edge and zero elsewhere, whatever the dtype of the structure.", "quantifier": "every structure, dtype and list of draws", "why_tests_cant": "all structures, dtypes and draws", "anchors": ["scripts/developing.py:random_B", "scripts/developing.py:verify_independence_pattern_GP"]}
{"id": "C83", "title": "generated data respect the structure", "statement": "In generate_dataset a measurement is a function of its own parents (and its own draws) only, and it does depend on each of them.", "quantifier": "every structure, weights and draws", "why_tests_cant": "all structures and real draws", "anchors": ["scripts/developing.py:generate_dataset"]}
{"id": "C84", "title": "the verification compares with the dependence graph", "statement": "The expected structure in verify_independence_pattern is the dependence graph without diagonal, and the match rate is 1 exactly if the estimate equals it.", "quantifier": "every structure and estimate", "why_tests_cant": "all matrices", "anchors": ["scripts/developing.py:verify_independence_pattern"]}
{"id": "C85", "title": "grid_search reports the hyperparameters with the least distance", "statement": "scripts/developing.py grid_search returns, for each of the two methods, the first (lambda, mu) pair in grid order whose fitted weights have the least squared distance to the true weights among the pairs whose fit and metrics did not raise, together with that distance; its two result arrays hold the distance and the sfd of every such pair, and the failure count is the number of the others.", "quantifier": "all datasets, true weights, grids, optimizer answers and metric values, including failing cells and ties", "why_tests_cant": "A test runs one grid on one dataset; ties, failing cells in any position and every optimizer answer can only be covered by a proof.", "anchors": ["scripts/developing.py:grid_search", "scripts/developing.py:calculate_metrics", "medil/models.py:DevMedil.fit"]}
{"id": "C86", "title": "Cross-validation folds partition the rows", "statement": "grid_search_kfold's split puts every row of the dataset in the validation part of exactly one of the k folds; a fold's training part is exactly the other rows; fold sizes differ by at most one; k < 2 or k larger than the number of rows is rejected with ValueError.", "quantifier": "all numbers of rows, all k, all shuffles", "why_tests_cant": "The guarantee concerns every (n, k, shuffle) triple.", "anchors": ["scripts/developing.py:grid_search_kfold"]}
{"id": "C87", "title": "What the cross-validation arrays contain", "statement": "For each (lambda, mu) cell and each method, the validation array of grid_search_kfold holds the mean, over the folds whose fit and validation did not raise, of the penalised loss on the held-out rows of the parameters that the optimizer returned for the training rows (for least squares with the error variances made non-negative): nan if every fold raised, infinity if one fold's loss is infinite. The squared-distance and sfd arrays hold nan in every cell, whatever happens.", "quantifier": "all datasets, grids, k, shuffles and optimizer answers (including exceptions)", "why_tests_cant": "Which folds raise and what the optimizer returns vary freely; a test fixes one run.", "anchors": ["scripts/developing.py:grid_search_kfold", "scripts/developing.py:calculate_validation_error", "medil/models.py:DevMedil.validation_mle", "medil/models.py:DevMedil.validation_lse"]}
{"id": "C88", "title": "the shipped examples are correct", "statement": "For each entry of medil.examples.examples the MCM induces exactly the UDG, the UDG has a unit diagonal, and no structure with that UDG has fewer latents; for more_latents every structure has more latents than measurements.", "quantifier": "the five shipped examples, every competing structure", "why_tests_cant": "minimality ranges over all competing covers", "anchors": ["medil/examples.py:examples"]}
{"id": "C89", "title": "the exact search recovers structures with private siblings", "statement": "If every child of every latent has a sibling such that only children of that latent depend on both (or is the only child of its only parent), find_clique_min_cover on the graph of the structure returns exactly its rows in some order, and no structure with the graph has fewer latents; one-pure-child structures are a special case.", "quantifier": "every such structure of every size, every iteration order of every set", "why_tests_cant": "all structures and set orders", "anchors": ["medil/ecc_algorithms.py:find_clique_min_cover", "medil/graph.py:ReducibleUndDepGraph"]}
{"id": "C90", "title": "a reduction that finishes without deletions is optimal", "statement": "If reduzieren(k) on a fresh ReducibleUndDepGraph copy removes all edges without Rule 3 and without exhausting k, then find_clique_min_cover returns the cliques it chose plus the isolated vertices and no cover has fewer rows.", "quantifier": "every graph with an edge, every budget k, every set order", "why_tests_cant": "optimality over all covers, all reduction histories", "anchors": ["medil/graph.py:ReducibleUndDepGraph.reduzieren", "medil/ecc_algorithms.py:find_clique_min_cover"]}
{"id": "C91", "title": "num_meas^2 // 4 latents are enough", "statement": "Every undirected graph on num_meas measurements is the dependence graph of a structure with at most num_meas**2 // 4 latents in which every measurement has a parent (the number DevMedil allocates without the one-pure-child assumption).", "quantifier": "every graph of every size", "why_tests_cant": "an extremal bound over all graphs", "anchors": ["medil/models.py:DevMedil.fit"]}
{"id": "C92", "title": "the printed bound on the number of cliques is valid", "statement": "The number printed by find_clique_min_cover in 'solution has at most {} cliques.' is an upper bound on the size of some edge clique cover of the input graph.", "quantifier": "every graph with an edge", "why_tests_cant": "an extremal bound over all graphs", "anchors": ["medil/ecc_algorithms.py:find_clique_min_cover"]}
{"id": "C93", "title": "one private pair per latent suffices for the exact search", "statement": "If every latent has a pair of children such that only its children depend on both, find_clique_min_cover returns rows covering every edge of the graph.", "quantifier": "every such structure, every set order", "why_tests_cant": "all structures and set orders", "anchors": ["medil/ecc_algorithms.py:find_clique_min_cover", "medil/graph.py:ReducibleUndDepGraph.rule_1"]}
{"id": "C94", "title": "Attributes of the reduced graph stay consistent", "statement": "In every state a ReducibleUndDepGraph object can be in while find_clique_min_cover runs, its attributes describe its adjacency matrix: num_edges is the number of uncovered edges, num_vertices the number of vertices still present, extant_edges_idx holds the number of each uncovered edge exactly once, every uncovered edge is an edge of the input between two present vertices, and common_neighbors holds the common neighbourhoods of the input's edges restricted to present vertices.", "quantifier": "every undirected graph with unit diagonal and at least one edge, every set order, every reachable sequence of copies, rules and covered cliques", "why_tests_cant": "The attributes are updated incrementally by four methods in arbitrary interleavings; tests look at a few states.", "anchors": ["medil/graph.py:ReducibleUndDepGraph.rule_1", "medil/graph.py:ReducibleUndDepGraph.rule_2", "medil/graph.py:ReducibleUndDepGraph.rule_3", "medil/graph.py:ReducibleUndDepGraph.cover_edges"]}
{"id": "C95", "title": "What reconstruct_cover does to a cover", "statement": "reconstruct_cover returns the cover unchanged if no vertex was ever deleted; otherwise it keeps every member of every row and adds a deleted vertex v to exactly those rows that contain one of v's recorded prisoners when v's turn comes, vertices being processed in increasing order; with a cover of None and something to expand it raises TypeError.", "quantifier": "every number of vertices, every recorded deletion array and every cover with rows of the right length", "why_tests_cant": "Quantifies over all covers and all deletion histories; the search itself never returns through this path.", "anchors": ["medil/graph.py:ReducibleUndDepGraph.reconstruct_cover"]}
{"id": "C96", "title": "Rule 3 deletions can be undone", "statement": "Deleting vertices by Rule 3 is safe: for the vertices deleted so far, expanding any clique cover of what is left with reconstruct_cover gives a clique cover of the whole graph with equally many cliques, minimum if the given one was.", "quantifier": "every graph, every history of Rule 1 and Rule 3 applications of any length, every clique cover of the remaining graph", "why_tests_cant": "The safety of an unbounded sequence of deletions undone in a different order is a theorem about all graphs.", "anchors": ["medil/graph.py:ReducibleUndDepGraph.rule_3", "medil/graph.py:ReducibleUndDepGraph.reconstruct_cover"]}
{"id": "C97", "title": "reset gives back a fresh graph", "statement": "After reset() a ReducibleUndDepGraph behaves as a newly constructed one: same adjacency matrix, counts, neighbourhoods and edge numbers, empty cover, and reconstruct_cover leaves covers alone.", "quantifier": "every graph and every state the object was in", "why_tests_cant": "Depends on every history of the object before the call.", "anchors": ["medil/graph.py:ReducibleUndDepGraph.reset"]}
{"id": "C98", "title": "verify_independence_pattern_GP scores the estimate of the measurements", "statement": "verify_independence_pattern_GP(biadj) classifies every pair of measurements once as true/false positive/negative, reports match rate, precision, recall and F1 accordingly, and gives a match rate of 1 exactly when the estimated graph is right about the variables it was estimated from.", "quantifier": "every 0/1 structure with at least one latent, every estimated graph", "why_tests_cant": "Ranges over all structures and all estimates; that a perfect estimate can never score 1 is a descent argument over the column offset.", "anchors": ["scripts/developing.py:verify_independence_pattern_GP"]}
{"id": "C99", "title": "the Gauss kernel is a covariance matrix", "statement": "compute_gauss_kernel(x, sigmay, sigmax) returns the symmetric matrix of sigmay*exp(-|xi-xj|^2/(2 sigmax^2)): diagonal sigmay, entries in (0, sigmay], unchanged when all points are moved together, positive semidefinite for every set of points, and positive definite exactly when the points are distinct.", "quantifier": "every number of points and dimensions, every real coordinates, sigmax != 0, sigmay > 0", "why_tests_cant": "Positive (semi)definiteness quantifies over all coefficient vectors and all point sets.", "anchors": ["scripts/developing.py:compute_gauss_kernel"]}
{"id": "C100", "title": "models do not influence each other through the random generator", "statement": "The outputs of fit and sample on one model object depend only on the calls made on that object, not on what is done to other model objects in between.", "quantifier": "every program of constructor, fit and sample calls on any number of objects, every generator", "why_tests_cant": "Quantifies over all interleavings of calls on all objects.", "anchors": ["medil/models.py:MedilCausalModel.__init__", "medil/models.py:GaussianMCM.sample", "medil/sample.py:mcm"]}
{"id": "C101", "title": "GaussianMCM.sample draws from the distribution that fit matched to the data", "statement": "If the generator's normal draws have the means and covariances asked for, every row returned by sample has mean error_means and covariance W^T W + diag(error_variances), for the model's weights W. After fit the mean is that of the data, and the quantity the optimizer minimised is the squared distance between the data's sample covariance and the covariance sampled from.", "quantifier": "every model, every fitted dataset and optimizer, every sample size, every row, every pair of measurements, every probability space whose draws have the stated moments", "why_tests_cant": "A statement about expectations over all random draws; a test sees finitely many draws.", "anchors": ["medil/models.py:GaussianMCM.sample", "medil/models.py:GaussianMCM.fit"]}
{"id": "C102", "title": "the reconstruction error measures how badly the data are reconstructed", "statement": "The error reported during training and validation is zero exactly for a perfect reconstruction and grows with the residuals; the weighted variant grows with the weighted residuals; the error of an epoch does not depend on how the rows were batched.", "quantifier": "every batch, reconstruction, predicted log-covariance, both settings of weighted, every batch size", "why_tests_cant": "Ranges over all data and reconstructions.", "anchors": ["medil/models.py:NeuroCausalFactorAnalysis._recon_error", "medil/models.py:NeuroCausalFactorAnalysis._train_vae", "medil/models.py:NeuroCausalFactorAnalysis._valid_vae"]}
{"id": "C103", "title": "biadj and mcm can generate everything that fits their arguments", "statement": "Every structure in which each latent has a pure child and each measurement a parent, with the requested sizes and the number of edges the density asks for, is returned by biadj for some outcome of the generator; every graph with the requested number of edges can be the one covered when one_pure_child=False; every admissible setting of weights, means and variances can be drawn by mcm.", "quantifier": "every structure, graph and parameter setting of every size", "why_tests_cant": "An existence claim over all structures; sampling tests cannot exclude that some structure has probability zero.", "anchors": ["medil/sample.py:biadj", "medil/sample.py:mcm"]}
{"id": "C104", "title": "what biadj asks of its generator is determined by its arguments", "statement": "A successful biadj call draws the number of latents only if it is 0 and the density only if it is None, then makes exactly three calls (one permutation with an entry for each optional edge, the column shuffle, the reordering); with one_pure_child=False exactly one permutation with an entry per pair. Calls refused for their arguments draw nothing. So the generator is left at the same point whatever was drawn.", "quantifier": "all arguments and outcomes of the generator", "why_tests_cant": "Ranges over all generator outcomes.", "anchors": ["medil/sample.py:biadj"]}
{"id": "C105", "title": "estimate_UDG decides every pair by its own test", "statement": "With a named pairwise test the returned p-value matrix has the test's p-value for columns i<j at (i,j) and (j,i) and zero on the diagonal, and the pair is joined exactly if that p-value is below the level; a given p-value matrix is thresholded entry by entry and returned unchanged; dcov_fast joins a pair exactly if n*dcov/(product of mean distances) reaches the critical value. The diagonal is always empty.", "quantifier": "every sample, method, level, test function and pair of features", "why_tests_cant": "Ranges over all samples, levels and tests.", "anchors": ["medil/independence_testing.py:estimate_UDG", "medil/independence_testing.py:dcov"]}
{"id": "C106", "title": "xicorr on data without ties is Chatterjee's coefficient, and ties=True is harmless", "statement": "If y has no ties, xicorr returns 1 - 3*sum|r_(k+1)-r_k|/(n^2-1), between -1/2-3/(2(n^2-1)) and (n-2)/(n+1); the p-value with ties=False uses the variance 2/5 and with ties=True exactly 2/5+9/(5(n^2-1)), so for a coefficient >= 0 the default ties=True never gives a smaller p-value. Inputs of different sizes raise ValueError.", "quantifier": "every pair of lists of any length >= 2, y without ties, every correct argsort, every normal cdf that decreases with the variance", "why_tests_cant": "Quantifies over all data and all sizes n.", "anchors": ["medil/independence_testing.py:xicorr", "medil/independence_testing.py:_xicorr"]}
{"id": "C107", "title": "the network cannot leave the range set by its output layer", "statement": "Whatever row is fed to the variational autoencoder, in training or evaluation mode and for any noise, reconstruction and log-covariance of measurement j lie within bounds set by the output layer's bias and the weights of the units of measurement j, so data far from the bias are not reconstructed; training mode without noise equals evaluation mode and the latent noise has mean 0 and the encoder's variance; the encoder is a rectifier network (positively homogeneous without biases); the layers an object holds, registered or not, determine it.", "quantifier": "every architecture, every parameter setting, every row, every noise", "why_tests_cant": "Ranges over all real parameters and inputs.", "anchors": ["medil/vae.py:VariationalAutoencoder.forward", "medil/vae.py:VariationalAutoencoder.latent_sample", "medil/vae.py:Encoder.forward", "medil/vae.py:Decoder.forward"]}
{"id": "C108", "title": "which calls of the models fail and what they leave behind", "statement": "GaussianMCM.fit without structure on a single measurement and with a structure of another width raises ValueError (in the second case after the dataset and the error means were replaced, weights and variances kept); sampling before fitting raises ValueError; NeuroCausalFactorAnalysis.fit raises IndexError for a split index outside the dataset, ValueError for an empty dataset and for batch_size 0, all before any forward pass; DevMedil.fit and sample raise ValueError for an unknown method and change nothing; DevMedil.sample gives latents times weights plus noise once the attributes it wants exist.", "quantifier": "every model state, dataset, split, method name and draw", "why_tests_cant": "Ranges over all states and inputs.", "anchors": ["medil/models.py:GaussianMCM.fit", "medil/models.py:GaussianMCM.sample", "medil/models.py:NeuroCausalFactorAnalysis.fit", "medil/models.py:DevMedil.fit", "medil/models.py:DevMedil.sample"]}
{"id": "C109", "title": "fitting the neural model learns or uses a causal structure", "statement": "After NeuroCausalFactorAnalysis.fit the model has a structure (learned if none was given) and the network follows it.", "quantifier": "every model state, dataset, split and random draw", "why_tests_cant": "Ranges over all structures, graphs, hyperparameters and data.", "anchors": ["medil/models.py:NeuroCausalFactorAnalysis.fit", "medil/models.py:NeuroCausalFactorAnalysis._train_vae", "medil/vae.py:VariationalAutoencoder", "medil/models.py:NeuroCausalFactorAnalysis._compute_biadj"]}
{"id": "C110", "title": "the seed makes fitting the neural model reproducible", "statement": "Two fits with the same seed, data and hyperparameters give the same network.", "quantifier": "every dataset, split, seed, hyperparameters and state of torch's generator", "why_tests_cant": "Quantifies over all generator states.", "anchors": ["medil/models.py:NeuroCausalFactorAnalysis.fit", "medil/models.py:NeuroCausalFactorAnalysis._train_vae", "medil/vae.py:VariationalAutoencoder"]}
{"id": "C111", "title": "reported losses are positive", "statement": "With hyperparameters >= 0 every entry of the four loss histories of a fitted neural model is positive (losses) or not negative (errors), one per epoch.", "quantifier": "every dataset, split, network initialisation, optimizer, noise", "why_tests_cant": "Ranges over all training runs.", "anchors": ["medil/models.py:NeuroCausalFactorAnalysis.fit", "medil/models.py:NeuroCausalFactorAnalysis._train_vae", "medil/vae.py:VariationalAutoencoder", "medil/models.py:NeuroCausalFactorAnalysis._elbo_gaussian", "medil/models.py:NeuroCausalFactorAnalysis._recon_error"]}
{"id": "C112", "title": "what fitting the neural model does to the random generators", "statement": "A successful fit advances torch's generator by the initialisation and one normal draw per training batch of the first epoch only, and reseeds numpy's global generator with the model's seed whatever its state was.", "quantifier": "every dataset, split, hyperparameters and generator", "why_tests_cant": "Ranges over all runs and generator states.", "anchors": ["medil/models.py:NeuroCausalFactorAnalysis.fit", "medil/models.py:NeuroCausalFactorAnalysis._train_vae", "medil/vae.py:VariationalAutoencoder"]}
{"id": "C113", "title": "GaussianMCM.fit recovers the parameters from an exact covariance", "statement": "If the sample covariance of the data is exactly that of a model on the structure fit uses, and the optimizer finds a global minimum, the stored weights are the model's up to the sign of each latent and the stored error variances are the model's.", "quantifier": "every dataset, structure, true weights and error variances, optimizer", "why_tests_cant": "Ranges over all structures and real parameters.", "anchors": ["medil/models.py:GaussianMCM.fit"]}
{"id": "C114", "title": "the penalised likelihood DevMedil minimises is bounded below", "statement": "The objective that DevMedil.fit(method='mle') hands to the optimizer is bounded below, so that the stored parameters can be a minimum.", "quantifier": "every dataset, penalty weights, number of latents, parameter vector, optimizer", "why_tests_cant": "Ranges over all real parameter vectors.", "anchors": ["medil/models.py:DevMedil.fit", "medil/models.py:DevMedil.validation_mle"]}
{"id": "C115", "title": "the error variances DevMedil reports are determined by the data", "statement": "Two global minima of the unpenalised objectives of DevMedil on the same data have the same error variances.", "quantifier": "every dataset with a regular covariance, every positive vector of error variances below a data dependent bound", "why_tests_cant": "Ranges over all datasets and real vectors.", "anchors": ["medil/models.py:DevMedil.fit", "medil/models.py:DevMedil.validation_mle"]}
{"id": "C116", "title": "an explicit 0/1 structure is treated like the same boolean structure", "statement": "GaussianMCM(biadj=B).fit and sample.mcm(biadj=B) give the same result whether B is a boolean array or the same array of integers (such as the structures in medil.examples).", "quantifier": "every structure, dataset, optimizer and generator", "why_tests_cant": "Ranges over all structures and datasets.", "anchors": ["medil/models.py:GaussianMCM.fit", "medil/sample.py:mcm", "medil/examples.py"]}
{"id": "C117", "title": "models fitted at the same time do not disturb each other's files", "statement": "When several NeuroCausalFactorAnalysis models are fitted at the same time on one file system, in any interleaving and with any of them killed at any point, a fit that runs to its end leaves its own network, losses and errors in its path, as if it had run alone.", "quantifier": "every number of fits, every path, all contents, every interleaving of their file operations and every crash point", "why_tests_cant": "There are unboundedly many interleavings of the writes of two processes; a test observes one.", "anchors": ["medil/models.py:NeuroCausalFactorAnalysis.fit", "medil/models.py:NeuroCausalFactorAnalysis.log"]}
{"id": "C118", "title": "the training log loses no line and keeps the order", "statement": "training.log is append-only: for any number of fits, sharing a path or not, in any interleaving and killed anywhere, the file is its old content followed by whole lines, and the lines of each fit are in it in order and without loss up to the point where the fit has got.", "quantifier": "every number of fits, every path, every schedule and crash point", "why_tests_cant": "Ranges over all interleavings and crash points.", "anchors": ["medil/models.py:NeuroCausalFactorAnalysis.log"]}
{"id": "C119", "title": "constructing a NeuroCausalFactorAnalysis provides its output directory", "statement": "The constructor creates the directory named by path if it is missing, keeps an existing one and all files, and can be called again; afterwards the log and the saved files of a fit can be created.", "quantifier": "every path and every state of the file system", "why_tests_cant": "Ranges over all states of the file system.", "anchors": ["medil/models.py:NeuroCausalFactorAnalysis.__init__"]}
{"id": "C120", "title": "parallel p-values depend neither on the number of processors nor on the schedule", "statement": "When estimate_UDG computes pairwise p-values with a pool of processes, the result is the one a sequential loop over the pairs would give, whatever the number of processors and the order in which the processes run; an exception is that of the first pair whose test raises; and the call returns.", "quantifier": "every number of processors, every schedule of the worker processes and the consumer, every number of pairs, every test function, every worker crash", "why_tests_cant": "The schedules of several processes are unboundedly many and not under a test's control; neither are crashes of workers.", "anchors": ["medil/independence_testing.py:estimate_UDG"]}
{"id": "C121", "title": "GaussianMCM().fit finds the model behind the data", "statement": "Given data from a linear one-pure-child model in which no dependence is cancelled, GaussianMCM().fit without a given structure learns exactly the model's structure up to the order of the latents, once there are enough observations and the sample covariance is within a constant times sqrt(log n / n) of the model's; if moreover every latent has three suitable children and the optimizer does at least as well as the true parameters, the stored weights (up to the sign of each latent) and error variances are off by at most a constant times the error of the sample covariance.", "quantifier": "every structure, all true parameters, every dataset, every order of set iteration, every optimizer", "why_tests_cant": "Consistency is a statement about all models and arbitrarily many observations; tests check a few simulated datasets of fixed size.", "anchors": ["medil/models.py:GaussianMCM.fit", "medil/models.py:GaussianMCM._estimate_udg", "medil/ecc_algorithms.py:find_heuristic_1pc"]}
{"id": "C122", "title": "find_clique_min_cover leaves the caller's arrays alone", "statement": "find_clique_min_cover does not modify the adjacency matrix it is given (or any other array that existed before the call), whether it returns or raises; the arrays its nodes share with each other do not influence the result; and the array it returns is not one of the caller's.", "quantifier": "every adjacency matrix, every heap of other arrays, every order of set iteration", "why_tests_cant": "Aliasing bugs appear only for graphs whose search takes the paths on which arrays are shared; no finite set of graphs covers them.", "anchors": ["medil/ecc_algorithms.py:find_clique_min_cover", "medil/ecc_algorithms.py:branch", "medil/graph.py:ReducibleUndDepGraph"]}
{"id": "C123", "title": "graph objects describe their current adjacency matrix", "statement": "After any sequence of constructions, add_edges, rm_edges, make_aux, reducible_copy and changes of arrays by the caller, the attributes of an UndirectedDependenceGraph (num_edges, and the auxiliary structure handed to reducible copies) describe its adjacency matrix.", "quantifier": "every program using graph objects and arrays, in any order and with any sharing", "why_tests_cant": "Whether an attribute is stale depends on the whole history of edits through this object, other objects and the caller's own array.", "anchors": ["medil/graph.py:UndirectedDependenceGraph", "medil/graph.py:ReducibleUndDepGraph.__init__"]}
{"id": "C124", "title": "the distances do not depend on the dtype of the structures", "statement": "sfd returns the exact squared Frobenius distance of the numbers of common parents and the exact number of pairs on which the induced graphs differ, whatever integer or boolean dtype the two structures have.", "quantifier": "every pair of 0/1 structures and every pair of array dtypes (bool, signed and unsigned integers of any width)", "why_tests_cant": "integer wrap-around shows only for structures with at least 2^w latents, far beyond unit tests", "anchors": ["medil/evaluate.py:sfd", "medil/evaluate.py:recover_ug"]}
{"id": "C125", "title": "permutation distances survive rounding", "statement": "Computed in float64, min_perm_squared_l2_dist and its abs version report, up to rounding, the least squared distance over all row orders and an order that attains it; the distance is exactly 0 if and only if some order matches exactly; it is exactly the same for every order of the predicted rows and, in the abs version, for all signs.", "quantifier": "every pair of float64 matrices that fit, every order in which numpy adds the squares", "why_tests_cant": "an error bound over all inputs and summation orders; the failing inputs are below 1e-160", "anchors": ["medil/evaluate.py:min_perm_squared_l2_dist", "medil/evaluate.py:min_perm_squared_l2_dist_abs"]}
{"id": "C126", "title": "the plots show what they are given", "statement": "show_dag draws every latent and measurement once, in two colours inside the window, with an arrow from L_i to M_j exactly if the structure has that entry, so that the drawing determines the structure; show_obs_dcor_mat shows every entry (or whether it exceeds the threshold) in the row and column named after its variables, with the rounded number on it; every other plot function of visualize.py shows its plot too.", "quantifier": "every structure, every square matrix, threshold and flag, every sample", "why_tests_cant": "a drawing is compared with a structure for all structures of all sizes; tests do not look at figures", "anchors": ["medil/visualize.py:show_dag", "medil/visualize.py:show_obs_dcor_mat", "medil/visualize.py:show_obs_adj_mat", "medil/visualize.py:show_pairwise_plot"]}
{"id": "C127", "title": "the experiments of developing.py report their results", "statement": "benchmark_graphs_deep_dive_kfold saves, for every graph and method, its own file with the average validation error, distance and sfd of each pair of hyperparameters next to these hyperparameters, under the number it announces; benchmark_graphs_deep_dive reports the best hyperparameters and the distances of the best estimates for every graph.", "quantifier": "every list of graphs, dataset, number of folds, optimiser and generator", "why_tests_cant": "the claim is about all runs of a long experiment; no test runs it", "anchors": ["scripts/developing.py:benchmark_graphs_deep_dive", "scripts/developing.py:benchmark_graphs_deep_dive_kfold", "scripts/developing.py:plot_heatmaps"]}
{"id": "C128", "title": "the scripts run to their end", "statement": "Running scripts/developing.py defines all its functions and executes its example usage; running scripts/pgm_demo.py saves the sample and shows the plots.", "quantifier": "every set of installed packages, every outcome of the experiments", "why_tests_cant": "the failure must be shown for every environment", "anchors": ["scripts/developing.py", "scripts/pgm_demo.py"]}
{"id": "C129", "title": "the exact search is right on graphs without diamonds", "statement": "If any two common neighbours of an edge are adjacent (every edge lies in exactly one maximal clique; in particular if there are no triangles), find_clique_min_cover ends and returns exactly the maximal cliques, each once, and no cover of the graph has fewer rows.", "quantifier": "every symmetric unit-diagonal matrix with this property, every order in which Python's sets are traversed", "why_tests_cant": "the claim ranges over infinitely many graphs and over set orders, and minimality over all competitors", "anchors": ["medil/ecc_algorithms.py:find_clique_min_cover", "medil/ecc_algorithms.py:branch", "medil/graph.py:ReducibleUndDepGraph.rule_2"]}
{"id": "C130", "title": "the exact search is right for up to five measurements", "statement": "For every graph with one to five measurements, and for each of medil.examples, find_clique_min_cover returns a minimum cover (for the examples: the given one) in whatever order Python's sets are traversed; with six measurements this stops being true.", "quantifier": "every graph with at most five vertices, the five examples, and every order of every set in a run", "why_tests_cant": "set order differs between Python versions and builds; a test sees one order, the claim is about all (unbounded families of orders, one per node of the search)", "anchors": ["medil/ecc_algorithms.py:find_clique_min_cover", "medil/ecc_algorithms.py:branch", "medil/ecc_algorithms.py:max_cliques", "medil/examples.py"]}
{"id": "C131", "title": "max_cliques is worst-case optimal", "statement": "On every graph of n measurements and for every order of the sets, the generator is exhausted within 5*3^(n/3) passes through its loop and has yielded at most 3^(n/3) cliques; no graph has more maximal cliques than that, and for every multiple of three there is a graph that has exactly 3^(n/3), all of which are yielded.", "quantifier": "every graph, every number of measurements and every order in which Python's sets are traversed", "why_tests_cant": "a bound for all sizes; tests can time a few graphs only, and with one set order", "anchors": ["medil/ecc_algorithms.py:max_cliques"]}
{"id": "C132", "title": "the cost of the exact search is bounded", "statement": "On every dependence graph with n measurements and E dependences, find_clique_min_cover tries at most E+3 numbers of cliques, calls branch at most (E+3)(1+t+t^2+t^3) times where t = 3^(n/3), and no other loop of the search makes more than E+5t passes, whatever the order of the sets.", "quantifier": "every graph with unit diagonal, every number of measurements and every order of the sets", "why_tests_cant": "worst cases over all graphs and set orders; timing tests sample a few", "anchors": ["medil/ecc_algorithms.py:find_clique_min_cover", "medil/ecc_algorithms.py:branch", "medil/ecc_algorithms.py:max_cliques", "medil/graph.py:ReducibleUndDepGraph.reduzieren"]}
{"id": "C133", "title": "the exact search has no superfluous latents", "statement": "Every latent with several measurements in the answer of find_clique_min_cover explains a dependence that no latent before it explains; so no two latents are equal, and there are at most as many of them as dependences; every other latent belongs to one measurement that would have none.", "quantifier": "every graph with unit diagonal and every order of the sets", "why_tests_cant": "an invariant of all runs of a backtracking search", "anchors": ["medil/ecc_algorithms.py:find_clique_min_cover", "medil/ecc_algorithms.py:branch", "medil/graph.py:ReducibleUndDepGraph"]}
{"id": "C134", "title": "printing parameters shows the current ones", "statement": "print(model.parameters) shows every attribute once, in the order of the first assignment and with the value assigned last, after any number of complete or interrupted fits; and two sets of parameters whose values print in one line print the same only if all values do.", "quantifier": "every parameterisation, every history of fits (each of which may stop at any assignment), every kind of value", "why_tests_cant": "histories of fits and crashes are unbounded", "anchors": ["medil/models.py:Parameters", "medil/models.py:GaussianMCM.fit", "medil/models.py:NeuroCausalFactorAnalysis.fit"]}
{"id": "C135", "title": "fitting solves a least squares problem that has a solution", "statement": "GaussianMCM.fit chooses weights and error variances that reproduce the sample covariance as well as the structure allows; in particular such best parameters exist.", "quantifier": "every dataset, every structure (given or learned), every optimizer", "why_tests_cant": "whether a minimum exists is a statement about all weights; an optimizer that is run on a problem without one still answers", "anchors": ["medil/models.py:GaussianMCM.fit"]}
{"id": "C136", "title": "the penalised least squares problem has a solution", "statement": "For all data and nonnegative penalties, DevMedil.fit(method='lse') minimises a function that attains its minimum, and with a positive penalty all minimisers lie in a ball determined by the data.", "quantifier": "every dataset, both numbers of latents, every nonnegative lambda_reg and mu_reg", "why_tests_cant": "existence of a minimum over all weights", "anchors": ["medil/models.py:DevMedil.fit_penalized_lse"]}
{"id": "C137", "title": "what a penalty does to the weights", "statement": "With a positive penalty the model without any influence is a strict local minimum of the penalised least squares objective, for all data; beyond an explicit strength of the penalty it is the only minimum, and the error variances are then the sample variances.", "quantifier": "every dataset, every number of latents, every penalty", "why_tests_cant": "quantifies over all weights in a neighbourhood and over all penalties", "anchors": ["medil/models.py:DevMedil.fit_penalized_lse", "medil/models.py:DevMedil.sigma"]}
{"id": "C138", "title": "the weights DevMedil reports are determined by the data", "statement": "Which weights DevMedil.fit reports as zero follows from the data and the penalties: equally good parameters have the same zero weights, up to order and sign of the latents.", "quantifier": "every dataset, both methods, every penalty, every answer of the optimizer", "why_tests_cant": "all equally good parameters have to be considered", "anchors": ["medil/models.py:DevMedil.fit_penalized_mle", "medil/models.py:DevMedil.fit_penalized_lse"]}
{"id": "C139", "title": "The final validation loss is the loss of the returned network", "statement": "After NeuroCausalFactorAnalysis.fit with at least one epoch, the last entries of the two validation histories are the average over the validation batches of the loss per row and the reconstruction error per row of the very network that fit leaves in the object: every row of a batch is passed through it whole and without noise.", "quantifier": "every dataset, split, seed, generator state, optimizer, network size, batch size and number of epochs >= 1", "why_tests_cant": "It relates the last iteration of a stateful loop to the final state for every optimizer and every dataset; a test sees one run of one optimizer.", "anchors": ["medil/models.py: NeuroCausalFactorAnalysis.fit, _train_vae, _valid_vae, _elbo_gaussian, _recon_error", "medil/vae.py: VariationalAutoencoder.forward"]}
{"id": "C140", "title": "inputs about different numbers of measurements are refused", "statement": "Comparing structures (sfd) or weights (min_perm_squared_l2_dist and its abs version), fitting a given structure (GaussianMCM.fit) and validating a fitted model (DevMedil.validation_mle, validation_lse) with inputs about different numbers of measurements raises an exception instead of returning a result.", "quantifier": "all pairs of widths, all structures, weights, datasets, optimizers and penalties", "why_tests_cant": "numpy's broadcasting depends on the combination of shapes; a test tries a few shapes", "anchors": ["medil/evaluate.py:sfd", "medil/evaluate.py:min_perm_squared_l2_dist", "medil/models.py:GaussianMCM.fit", "medil/models.py:DevMedil.validation_lse", "medil/models.py:DevMedil.validation_mle"]}
{"id": "C141", "title": "the generators of sample.py survive rounding", "statement": "In float64 arithmetic biadj still returns one-pure-child structures (resp. covers a graph) with the number of edges nearest to density times the number of possible ones, every structure with that number of edges can be drawn, and mcm's weights and error variances are in [0.5, 2) and error means in (-2, 2) on every outcome of the generator; every admissible float64 parameter can be drawn.", "quantifier": "all sizes, densities, outcomes of the generator", "why_tests_cant": "rounding errors near a tie and the largest random number are not hit by random tests", "anchors": ["medil/sample.py:biadj", "medil/sample.py:mcm"]}
{"id": "C142", "title": "what the loss histories of a neural fit contain", "statement": "After NeuroCausalFactorAnalysis.fit, entry e of the training histories is the average over the steps of epoch e of the loss (with the penalties of the weights divided by the rows in the batch) and the error of the network before each optimizer step; entry e of the validation histories is the average over the validation batches of the loss without penalties and the error of the network after that epoch; noise enters only the training entries of the first epoch; training and validation losses measure the same thing, so that they can be compared.", "quantifier": "all datasets, splits, batch sizes, numbers of epochs, optimizers, initialisations, noise", "why_tests_cant": "depends on the whole history of optimizer steps", "anchors": ["medil/models.py:NeuroCausalFactorAnalysis.fit", "medil/models.py:_train_vae", "medil/models.py:_valid_vae"]}
{"id": "C143", "title": "the exact search is right on graphs without gems and 4-wheels", "statement": "If no vertex of the dependence graph is adjacent to all of a path of four vertices a-b-c-d without the chords ac and bd (no induced gem, no induced wheel with four spokes), find_clique_min_cover ends for every iteration order of the sets, and returns the maximal cliques, each once, which is a minimum edge clique cover. Graphs without diamonds, graphs without induced squares and gems, and graphs whose dependences form a hierarchy are of this kind. With one more vertex joined to a gem or to a 4-wheel this fails: the search can miss an edge.", "quantifier": "all numbers of variables, all graphs of the class, all set iteration orders", "why_tests_cant": "tests see a few graphs and one iteration order", "anchors": ["medil/ecc_algorithms.py:find_clique_min_cover", "medil/ecc_algorithms.py:branch", "medil/graph.py:UndirectedDependenceGraph.reduzieren"]}
{"id": "C144", "title": "the numbering of the measurements does not matter", "statement": "Renumbering the measurements (permuting rows and columns of the dependence graph, or the columns of the data) renumbers the structures found by find_clique_min_cover, find_heuristic_1pc and GaussianMCM().fit, up to the order of the latents.", "quantifier": "all numbers of measurements, all graphs / datasets, all permutations, all set iteration orders", "why_tests_cant": "a test fixes one numbering and one iteration order", "anchors": ["medil/ecc_algorithms.py:find_clique_min_cover", "medil/ecc_algorithms.py:find_heuristic_1pc", "medil/models.py:GaussianMCM.fit"]}
{"id": "C145", "title": "the order of the observations does not matter", "statement": "Permuting the rows of the dataset changes neither the xicorr coefficient and p-value, nor the dependence graph estimated with xicor, nor the structure and parameters found by GaussianMCM().fit, nor the result and validation scores of DevMedil.", "quantifier": "all datasets, all permutations of the rows, all sorting routines, all answers of the optimizer", "why_tests_cant": "a test permutes one dataset; whether ties break the invariance depends on the sorting routine", "anchors": ["medil/independence_testing.py:xicorr", "medil/independence_testing.py:estimate_UDG", "medil/models.py:GaussianMCM.fit", "medil/models.py:DevMedil.fit"]}
{"id": "C146", "title": "xicorr judges every pair of samples", "statement": "For two samples of the same size, two or more observations and any ties, xicorr returns a finite coefficient between -1/2 - 3/(2(n^2-1)) and 1 and a p-value between 0 and 1 (never nan), hence every p-value and every edge of the xicor graph is decided by a number.", "quantifier": "all samples, ties included, all sorting routines, all values of norm.cdf in [0, 1]", "why_tests_cant": "division by the tie-dependent normaliser and the square root of the estimated variance go wrong only on particular tie patterns", "anchors": ["medil/independence_testing.py:xicorr", "medil/independence_testing.py:estimate_UDG"]}
{"id": "C147", "title": "The reported distances are distances", "statement": "The distances reported by sfd and by the two minimum-permutation functions behave like distances: the result does not depend on which of two equally large structures comes first, and a structure close to a second one that is close to a third is close to the third (triangle inequality).", "quantifier": "all biadjacency matrices and all weight matrices of compatible shapes, including comparisons with fewer latents (zero rows)", "why_tests_cant": "the triangle inequality quantifies over three arbitrary structures and over all row orders considered by the search", "anchors": ["medil/evaluate.py:sfd", "medil/evaluate.py:min_perm_squared_l2_dist", "medil/evaluate.py:min_perm_squared_l2_dist_abs"]}
{"id": "C148", "title": "xicorr treats integer and boolean arrays as the numbers they hold", "statement": "xicorr gives the same result for an array of fixed-width integers or booleans as for the floats with the same values, although it negates the array (which wraps around for unsigned integers and for the smallest signed one).", "quantifier": "all widths, signed and unsigned, all values the type can hold, all ties", "why_tests_cant": "wraparound of the negation permutes the ranks in a way that depends on the type and on which extreme values occur", "anchors": ["medil/independence_testing.py:_xicorr", "medil/independence_testing.py:xicorr"]}
{"id": "C149", "title": "Infinite and missing values in xicorr", "statement": "Infinite values are judged as numbers beyond all others; a missing value (nan) in either sample makes coefficient and p-value nan, so that it never produces an edge.", "quantifier": "all samples, positions of the infinite and missing values, sorting routines", "why_tests_cant": "the effect depends on which of the two arguments contains the nan and on the order in which nans are sorted", "anchors": ["medil/independence_testing.py:_xicorr", "medil/independence_testing.py:xicorr"]}
{"id": "C150", "title": "xicorr survives rounding", "statement": "In floating point the coefficient of xicorr is that of exact arithmetic up to rounding, is at most 1, and is 1 only if y is constant; the p-value is a number whenever the exact one is.", "quantifier": "all samples (with the stated bound on their size), orders in which numpy adds, sorting routines", "why_tests_cant": "the rounding errors depend on the sample size and the ties, and the variance is a difference of nearly equal numbers, so a rare sample decides", "anchors": ["medil/independence_testing.py:_xicorr", "medil/independence_testing.py:xicorr"]}
{"id": "C151", "title": "a missing or infinite value concerns its own measurement only (dcov_fast)", "statement": "estimate_UDG(method=\"dcov_fast\") joins a measurement with a missing (nan) or infinite value to no other measurement; all pairs without such values are judged exactly as if the whole dataset were complete.", "quantifier": "all datasets over finite, infinite and missing values, all levels", "why_tests_cant": "nan propagates through centring, products and the comparison; a test shows it for one position of one value", "anchors": ["medil/independence_testing.py:estimate_UDG", "medil/independence_testing.py:dcov"]}
{"id": "C152", "title": "fitting with missing or infinite values", "statement": "In GaussianMCM.fit and DevMedil.fit a missing or infinite value affects only its own measurement: the graph and the parameters of the other measurements are those of the complete data, or the data are refused.", "quantifier": "all datasets over finite, infinite and missing values, all structures, all parameters, all optimizers", "why_tests_cant": "the objective is evaluated at parameters the optimizer chooses", "anchors": ["medil/models.py:GaussianMCM.fit", "medil/models.py:GaussianMCM._estimate_udg", "medil/models.py:DevMedil.fit_penalized_mle", "medil/models.py:DevMedil.fit_penalized_lse"]}
{"id": "C153", "title": "what dcov_fast can find in small samples", "statement": "The statistic of estimate_UDG(method=\"dcov_fast\") lies between -(n-1)/2 and (n-1)/2, so no edge is reported, whatever the data, while (n-1)/2 is below the critical value of the level (at the default level: up to eight observations); the bound is sharp.", "quantifier": "all datasets, sample sizes and levels", "why_tests_cant": "a bound over all datasets; a test shows it for one", "anchors": ["medil/independence_testing.py:estimate_UDG", "medil/independence_testing.py:dcov"]}
{"id": "C154", "title": "dcov_fast survives rounding", "statement": "In floating point estimate_UDG(method=\"dcov_fast\") returns the graph of exact arithmetic except for pairs whose statistic is within rounding of the critical value, whatever the unit of measurement; the graph is undirected and constant measurements are isolated.", "quantifier": "all samples (with the stated bounds), orders in which numpy and BLAS add (fused multiply-add included), levels", "why_tests_cant": "the rounding errors depend on the data, the sample size and the order of the additions", "anchors": ["medil/independence_testing.py:dcov", "medil/independence_testing.py:estimate_UDG"]}
{"id": "C155", "title": "the Gaussian graph survives rounding", "statement": "In floating point, GaussianMCM.fit estimates for two measurements that vary the same edge as exact arithmetic does, unless their strength of dependence (squared covariance over the product of the standard deviations) is within a stated rounding error of the threshold; whatever the rounding, the graph is undirected and without loops; a constant measurement gets no edge.", "quantifier": "all datasets of binary64 numbers, all orders of adding up the observations (pairwise, blocked, with fused multiply-add), all C libraries whose logarithm is accurate to 8 units in the last place", "why_tests_cant": "A test compares one platform's result on a few datasets; it can neither cover all data near and away from the threshold nor the summation orders numpy and BLAS choose by size and hardware.", "anchors": ["medil/models.py:GaussianMCM._estimate_udg"]}
{"id": "C156", "title": "NCFA can be trained on a GPU", "statement": "NeuroCausalFactorAnalysis chooses the GPU when the machine has one; fitting then works as on a machine without.", "quantifier": "all datasets, splits, hyperparameters, initial networks and optimizers, on machines with and without GPU", "why_tests_cant": "Test machines have no GPU, so this path never runs in a test; and a run on one GPU says nothing about other architectures, splits and hyperparameters.", "anchors": ["medil/models.py:NeuroCausalFactorAnalysis.__init__", "medil/models.py:NeuroCausalFactorAnalysis._train_vae", "medil/models.py:NeuroCausalFactorAnalysis.fit", "medil/vae.py:SparseLinear", "medil/vae.py:Decoder"]}
{"id": "C157", "title": "the logged number of parameters counts all weights", "statement": "The number of parameters that NeuroCausalFactorAnalysis.fit writes to its log is the number of weights and biases of the network it trains.", "quantifier": "all architectures", "why_tests_cant": "A test checks one architecture; the count must be right for every number of measurements, hidden layers and widths.", "anchors": ["medil/models.py:NeuroCausalFactorAnalysis._train_vae", "medil/vae.py:Decoder"]}
{"id": "C158", "title": "the network is trained on the recorded values", "statement": "The values NeuroCausalFactorAnalysis.fit hands to its network are those of the (standardised) dataset: datasets that differ in some value a user recorded are told apart.", "quantifier": "all datasets, splits, networks, optimizers and hyperparameters", "why_tests_cant": "A test compares a few fits; the precision of the conversion matters for values of every magnitude.", "anchors": ["medil/models.py:NeuroCausalFactorAnalysis._data_loader", "medil/models.py:NeuroCausalFactorAnalysis.fit"]}
{"id": "C159", "title": "missing values do not spoil the neural model silently", "statement": "NeuroCausalFactorAnalysis.fit refuses infinite and missing values or uses the remaining ones; a fit that returns reports losses that are numbers.", "quantifier": "all datasets with missing or infinite values at any place, all splits, networks, optimizers and hyperparameters", "why_tests_cant": "A test has a missing value at one place; where the value ends up depends on the split.", "anchors": ["medil/models.py:NeuroCausalFactorAnalysis.fit", "medil/models.py:NeuroCausalFactorAnalysis._train_vae", "medil/models.py:NeuroCausalFactorAnalysis._valid_vae", "medil/models.py:NeuroCausalFactorAnalysis._elbo_gaussian", "medil/models.py:NeuroCausalFactorAnalysis._recon_error"]}
{"id": "C160", "title": "samples from a fitted model vary as the data did", "statement": "After GaussianMCM.fit found parameters that reproduce the covariance, measurements drawn with GaussianMCM.sample have the means and variances of the data.", "quantifier": "all datasets, structures, fitted parameters, numbers of samples, decompositions numpy may return and distributions of standard noise", "why_tests_cant": "A test draws from parameters with positive error variances and compares a few averages.", "anchors": ["medil/models.py:GaussianMCM.sample", "medil/models.py:GaussianMCM.fit"]}
{"id": "C161", "title": "fitted parameters follow the units of measurement", "statement": "If measurements are recorded in other units, GaussianMCM.fit with the same structure finds the same parameters expressed in the new units: weights multiplied by the factors, error variances by their squares.", "quantifier": "all datasets with at least one measurement, structures, factors per measurement and optimizers that find a best solution", "why_tests_cant": "A test compares two runs of an optimizer on one dataset and one pair of units, and cannot tell a bad optimizer from a different optimum.", "anchors": ["medil/models.py:GaussianMCM.fit"]}
{"id": "C162", "title": "what DevMedil finds does not depend on the units", "statement": "Recording all measurements in another unit does not decide whether DevMedil.fit(method='lse') finds influences of latents; the best parameters are the same, expressed in the new unit.", "quantifier": "all datasets, penalties, units and solutions of the penalised least squares problem", "why_tests_cant": "A test runs an optimizer from one start; which parameters are best in which unit it cannot tell.", "anchors": ["medil/models.py:DevMedil.fit_penalized_lse"]}
{"id": "C163", "title": "fitting treats unrelated groups of measurements separately", "statement": "If no latent has children both in and outside a group of measurements, then what GaussianMCM.fit finds best for the group depends on the data of the group only: the data of all other measurements can be exchanged without changing it.", "quantifier": "all datasets, structures, groups of measurements without a common latent, and optimizers that find a best solution", "why_tests_cant": "A test compares two fits from a start vector; that the sets of best solutions are products is a statement about all solutions.", "anchors": ["medil/models.py:GaussianMCM.fit"]}
{"id": "C164", "title": "the heuristic treats unrelated groups of measurements separately", "statement": "If no dependence joins two groups of measurements, find_heuristic_1pc answers for all measurements whatever the order in which sets are iterated if and only if it does so for each group by itself; what it answers is, up to the order of the latents, an answer for the first group side by side with an answer for the second, and every such pair is answered in some order; a measurement that depends on no other gets a latent of its own and changes nothing else.", "quantifier": "all undirected graphs on two non-empty groups of measurements, all orders of iteration", "why_tests_cant": "Maximum independent sets are found by one enumeration over all measurements; a test sees one graph and one order of iteration.", "anchors": ["medil/ecc_algorithms.py:find_heuristic_1pc"]}
{"id": "C165", "title": "the distances of unrelated groups of measurements add up", "statement": "If estimated and true structures (weights) both consist of two groups of measurements without a common latent, the distances reported by sfd and by the permutation distances are those of the groups, added.", "quantifier": "all structures and weights on two groups; for the permutation distances with as many estimated as true latents in each group", "why_tests_cant": "The permutation distances search all orders of all latents, also those that mix the groups; a test tries a few weights.", "anchors": ["medil/evaluate.py:sfd", "medil/evaluate.py:min_perm_squared_l2_dist", "medil/evaluate.py:min_perm_squared_l2_dist_abs"]}
{"id": "C166", "title": "measurements that are independent in the sample are left unconnected", "statement": "If in the sample the relative frequency of every pair of values of two measurements is the product of the relative frequencies of the values, then no estimator of the undirected dependence graph connects the two.", "quantifier": "all samples with two such measurements, all significance levels, all sorting routines", "why_tests_cant": "Independence in the sample is a condition on all pairs of values; a test checks a few samples.", "anchors": ["medil/independence_testing.py:dcov", "medil/independence_testing.py:estimate_UDG", "medil/independence_testing.py:xicorr", "medil/models.py:GaussianMCM._estimate_udg"]}
{"id": "C167", "title": "a measurement is connected with its copies", "statement": "If a measurement that varies occurs twice in a dataset with enough observations, every estimator of the undirected dependence graph connects the two columns.", "quantifier": "all datasets with two equal columns, all significance levels, all sorting routines, all numbers of observations above some bound", "why_tests_cant": "How many observations are enough is a statement about all larger datasets; a test tries a few.", "anchors": ["medil/independence_testing.py:dcov", "medil/independence_testing.py:estimate_UDG", "medil/independence_testing.py:xicorr", "medil/models.py:GaussianMCM._estimate_udg"]}
{"id": "C168", "title": "leaving measurements out", "statement": "The undirected dependence graph estimated from some of the measurements of a dataset is the corresponding part of the one estimated from all of them, neither the heuristic nor the exact search needs more latents for it, and the heuristic still gives an answer if it does for all measurements.", "quantifier": "all datasets and all selections of columns in their order, all estimation methods, all undirected graphs, all orders in which sets are iterated", "why_tests_cant": "The claim compares runs on every selection of columns; a test tries a few.", "anchors": ["medil/independence_testing.py:estimate_UDG", "medil/models.py:GaussianMCM._estimate_udg", "medil/ecc_algorithms.py:find_heuristic_1pc", "medil/ecc_algorithms.py:find_clique_min_cover"]}
{"id": "C169", "title": "copies share their latents", "statement": "If some measurements are recorded several times, the structure found has the same latents as without the copies, and every copy gets the latents of its original.", "quantifier": "all undirected graphs and all graphs in which copies of its vertices are connected with each other and with what the original is connected with; all orders in which sets are iterated; for data, all datasets, levels above 0 and numbers of observations above some bound", "why_tests_cant": "The claim compares runs on all graphs and all ways of copying; a test tries a few.", "anchors": ["medil/ecc_algorithms.py:find_heuristic_1pc", "medil/ecc_algorithms.py:find_clique_min_cover", "medil/independence_testing.py:estimate_UDG"]}
{"id": "C170", "title": "counting observations several times", "statement": "If every observation of a dataset is counted several times, the estimated dependence graph loses no connection, and with enough repetitions two measurements are connected exactly if their distance covariance in the sample is not zero.", "quantifier": "all datasets, all pairs of measurements, all numbers of repetitions, all significance levels", "why_tests_cant": "The limit is a statement about all numbers of repetitions; a test tries a few.", "anchors": ["medil/independence_testing.py:dcov", "medil/independence_testing.py:estimate_UDG", "medil/models.py:GaussianMCM._estimate_udg"]}
{"id": "C171", "title": "the distance covariance recognises dependence", "statement": "The distance covariance that dcov_fast is built on is zero exactly for measurements that are independent in the sample, and if every observation is counted often enough, dcov_fast connects exactly the measurements that are dependent in the sample.", "quantifier": "all datasets, all pairs of measurements, all positive critical values, all numbers of repetitions above some bound", "why_tests_cant": "An equivalence over all samples; a test tries a few.", "anchors": ["medil/independence_testing.py:dcov", "medil/independence_testing.py:estimate_UDG"]}
{"id": "C172", "title": "the matrix of distance covariances is a covariance matrix", "statement": "The matrix that dcov returns has only nonnegative quadratic forms, the square of an entry is at most the product of the two diagonal entries, and dcov_fast connects two measurements only if the statistic of at least one of them with itself reaches the critical value.", "quantifier": "all datasets, all coefficients of the quadratic form, all pairs of measurements, all positive critical values", "why_tests_cant": "An inequality over all samples; a test tries a few.", "anchors": ["medil/independence_testing.py:dcov", "medil/independence_testing.py:estimate_UDG"]}
