# Formal model of medil in Rocq (Coq 8.16.1)

## Layout (rocq/theories)

* `Base.v` - exceptions as values, lists, matrices as lists of rows; `RSum.v`, `QSum.v` - finite sums over reals and rationals.
* `Spec.v`, `*Spec.v` - the specification vocabulary (clique, edge clique cover, one pure child, sample moments, ...). A few of these files mention the records of the model (an object's fields), none of them its functions' helpers.
* `*Model.v` - the model, function by function; every definition cites the lines of /repo it models and says what is simplified.
* `*Proofs.v` and the other files (`EccPriv.v`, `CoverBounds.v`, ...) - lemmas.
* `Properties*.v` - the property theorems `Cnn_...`, each followed by `Print Assumptions` and by examples that meet the hypotheses.
* `MANIFEST.json` maps properties to theorems, `properties.jsonl` states them in English, `seeded/LOG.jsonl` is the mutation log.

## Modelling decisions

* Python exceptions are values (`Ok`/`Err`). Loops without a syntactic bound take fuel and return `None` when it runs out; the theorems say both that some fuel suffices and that every run that finishes has the property.
* Sets: `set.pop`, iteration in `max(set, key=...)` and `np.fromiter(set)` have an order the language does not fix. Every such choice is made by an oracle (a choice index per step), universally quantified in the theorems: all set orders are covered.
* numpy arrays are lists of lists; 0/1 and bool arrays are both `list (list bool)`; in-place updates return the new value. Where aliasing matters (`reduced_away` shared between parent and child nodes of the search, the default generator shared by model objects) it is modelled explicitly, and for the exact search a model with all arrays in a heap is proved equivalent (C122); where the dtype matters (np.zeros_like, assignment into integer arrays) the dtype is modelled.
* Random generators are oracles giving arbitrary permutations / numbers in the documented ranges; where the question is which generator is used, generators are a heap with states.
* Floating point is replaced by exact rational or real arithmetic, with explicit infinities/nan where the code can produce them; nothing is claimed about rounding, except for `floor(0.7*n)` (C76), the permutation distances (C125, with overflow, infinities and nan), sample.py (C141), xicorr (C150), dcov_fast (C154, with overflow), GaussianMCM's graph (C155) and the conversion of training data to single precision (C158), which are modelled with IEEE rounding (all but the first with the Flocq library, which adds no axioms).
* Objects are records; a method is a function from the record to the record and a result. Files and prints that users read (training log, pickles, .nde) are effect traces; concurrent fits are sequences of file operations on one file system, interleaved by an arbitrary schedule (FsModel).

## Trusted base

1. Coq 8.16.1's kernel (including `vm_compute`, used for closed witnesses) and the four axioms of its standard library listed below. No axioms, parameters, section-less variables, functors or module types are added; no kernel check is switched off; nothing is admitted.
2. That the model says what the code says. There was no way to run the code here; the model was written from the text, and lines are cited so that the comparison can be repeated.
3. Assumptions about the environment, all visible either as quantified oracles, as hypotheses of the theorems or in the definitions: numpy's Generator obeys its documented ranges; `int(np.sqrt(k))` is the exact integer square root; sklearn's KFold/train_test_split/StandardScaler follow their documentation; scipy's `minimize`, chi-square quantiles, the normal cdf, dcor's test, and torch (initialisation, normal draws, optimiser, inverse, nuclear and spectral norms) are parameters; seeds are valid (below 2^32); explicit split indices are non-negative.

### Modelled

| code | model |
|---|---|
| medil/graph.py: both classes, all methods except the file name of convert_to_nde | GraphModel, EccModel, ReduceModel, NdeModel; HeapModel, UdgHeapModel (the same with arrays in a heap) |
| medil/ecc_algorithms.py: all functions | MaxCliquesModel, EccModel, HeuristicModel, CoverModel (printed bound) |
| medil/evaluate.py: all functions | EvaluateModel, PermDistModel; ShapeModel (arguments about different numbers of measurements, numpy broadcasting); EvalIntModel (sfd with wrapping machine integers), PermFloatModel, PermInfModel (permutation distances with rounding) |
| medil/examples.py: the example structures | CoverModel, DtypeModel (integer structures) |
| medil/independence_testing.py: all functions | IndepModel; XiDataModel (xicorr on integer, boolean, infinite and nan data); XiFloatModel (xicorr with rounding); DcovFloatModel (dcov_fast with rounding), DcovInfModel (with overflow); NanGraphModel (estimate_UDG on infinite and missing values); PoolModel (lines 61-75 with an explicit schedule; multiprocessing.Pool.imap modelled from the source of the Python library) |
| medil/sample.py: mcm, biadj | SampleModel, RngModel, SampleFloatModel (IEEE) |
| medil/models.py: MedilCausalModel, Parameters (ParamModel), GaussianMCM, DevMedil, NeuroCausalFactorAnalysis | GaussModel, GaussFloatModel (_estimate_udg with rounding), RngModel, DevModel, NcfaModel, LossModel, ReconModel, NeuralModel, DtypeModel, NanFitModel (covariance and objectives on infinite and missing values), FsModel (files of concurrent fits), DeviceModel (tensors on CPU and GPU), Float32Model (conversion of the training data to single precision), NcfaNanModel (fit on missing and infinite values), MvnModel (sample with numpy's multivariate_normal) |
| medil/vae.py: all classes | VaeModel |
| medil/visualize.py | DagModel (get_dag_from_biadj), VisModel (plots as lists of artists; names) |
| scripts/developing.py: grid searches, data generators, gaussian kernel, scoring of the independence pattern | GridModel, DagModel, KernelModel, VerifyModel |
| scripts/developing.py: experiment drivers and their plots; names at top level of both scripts | BenchModel, ScriptModel |

### Not modelled

How matplotlib renders the artists of a plot, verbose printing and the time stamps of log lines, developing.py `rng`, what pgm_demo.py would compute, the documentation, tests and setup files; floating-point rounding elsewhere than in C76, C125, C141, C150, C154, C155 and C158; running time (except for the bounds C131 and C132) and memory; the statistical quality of estimates (only algebraic facts about them are proved); the probability distributions of numpy's and torch's generators (only their ranges, except the moments assumed in C101).

## Properties: plan and outcome

Status `partial` is used both for properties proved with a restriction (theorems `..._partial`) and for properties that are *false of the code*, in which case a theorem `..._refuted` proves the negation (or a counterexample) about the model, and the positive theorems say what does hold.

| property | model files | method | status | note |
|---|---|---|---|---|
| C01 max_cliques enumerates the maximal cliques exactly | MaxCliques | loop invariant over frames of the explicit stack; measure on |cand| | proved |  |
| C02 max_cliques always terminates | MaxCliques | strong induction on |cand|, any square matrix | proved |  |
| C03 the heuristic recovers every one-pure-child structure | Heuristic | maximum independent sets of a 1PC graph are sets of pure children | proved |  |
| C04 whatever find_heuristic_1pc returns explains every dependence | Heuristic | maximum independent sets dominate; closed neighbourhoods | proved |  |
| C05 find_heuristic_1pc returns a structure for every dependence graph | Heuristic | refuted on the 5-cycle for every oracle (np.ndarray rows in a set are unhashable: TypeError); exact condition for success proved | partial | The property is false of the code and is refuted: the set comprehension at line 248 hashes ndarray rows, so the 5-cycle raises TypeError for every set order, and the empty graph raises StopIteration. The exact condition is proved: on a non-empty undirected graph there is an answer for every set order iff every maximum independent set dominates the edges, TypeError for every order iff none does, and on the 4-chain the order decides. |
| C06 the heuristic's structure induces the given graph | Heuristic | refuted on the 4-cycle for every oracle; superset direction is C04 | partial | The property is false of the code and is refuted (4-cycle, every set order); C64 says exactly when it holds. |
| C07 the heuristic never uses more latents than any exact cover | Heuristic | pigeonhole: a clique meets an independent set at most once | proved |  |
| C08 find_clique_min_cover terminates without raising | Ecc | measure: number of uncovered edges strictly drops in every reduction round; budget argument for the outer loop | proved | n=0 is excluded: see C65 |
| C09 every latent found by the exact search is a clique | Ecc | invariant: counts never exceed the true counts, so score 0 implies clique; reconstruct_cover provably never has work to do | proved |  |
| C10 every measurement gets a latent from the exact search | Ecc | add_isolated_verts | proved |  |
| C11 find_clique_min_cover returns an edge clique cover | Ecc | refuted by vm_compute (6-vertex witness); C22, C13 give the positive parts | partial | False of the code: two independent causes, each with a computed witness (Rule 3 deletes a vertex that is never re-inserted; iteration_max=3); on the octahedron it fails for every set order. Positive parts: C11_edge_cover_partial (graphs without diamonds), C130 (at most five measurements), C22 (no deletion, no limit), C13 and C89 (one-pure-child and private-sibling graphs). Holds for all graphs without induced gems and 4-wheels (C143). |
| C12 find_clique_min_cover returns a minimum cover | Ecc | refuted by vm_compute (8-vertex witness with an explicit smaller cover) | partial | False of the code: 8-vertex graph with a 7-row answer and an explicit 6-row cover. Positive parts: C12_minimum_partial (graphs without diamonds), C130 (at most five measurements), C13 and C89 (one-pure-child and private-sibling graphs). Holds for all graphs without induced gems and 4-wheels (C143). |
| C13 the exact search recovers every one-pure-child structure | Ecc | invariant: a clique of B that is not yet chosen has lost no vertex, so its counts are exact | proved |  |
| C14 edgeless graphs are returned as they are | Ecc | direct | proved | numpy: assigning a (0,)-shaped array into a (0,n) array raises ValueError, which find_clique_min_cover catches |
| C15 an estimated dependence graph can be passed to the exact search | Ecc | int(np.sqrt(p)) with p<0 raises: refuted for every zero-diagonal graph with an edge | partial | False of the code for every zero-diagonal graph with an edge: ValueError; exactly those, an edgeless one is returned unchanged. If the caller fills the diagonal first the search answers for every estimated graph. |
| C16 edge numbering is a bijection | Graph | list lemmas about triu order | proved |  |
| C17 make_aux records common neighbourhoods and their edge counts | Graph | builder lemmas | proved |  |
| C18 edge insertion and removal keep the graph consistent | Graph | induction over the operation list | proved |  |
| C19 reduction keeps the neighbourhood edge counts exact | Ecc | refuted with a reachable state (double subtraction); one-sided bound proved for all reachable states | partial | False of the code (an edge between two vertices isolated in the same round is subtracted twice); proved: never too large in every reachable state, exact until the first clique is chosen. |
| C20 Rule 2 only adds cliques that cover something new | Ecc | invariant | proved |  |
| C21 vertices deleted by Rule 3 are put back | Ecc | refuted: reconstruct_cover is never reached with an uncovered deleted vertex | partial | False of the code; C66 is the general reason (the reconstruction never produces an answer); C96: the reconstruction itself is right as long as no clique is in the cover. |
| C22 a run without Rule 3 and without the depth limit is a correct cover | Ecc | instrumented run proved equal to the plain one | proved |  |
| C23 the .nde file determines the graph | Nde | text lines as data, parser as spec | proved |  |
| C24 sfd is symmetric and blind to latent order | Evaluate | Gram matrix depends only on the multiset of rows | proved |  |
| C25 sfd dominates the Hamming distance | Evaluate | pointwise | proved |  |
| C26 zero sfd means the same structure | Evaluate | refuted by a 3-measurement pair | partial | False; C67 is the exact meaning, C27 the case where it identifies. |
| C27 on one-pure-child structures zero Hamming distance identifies the structure | Evaluate | uniqueness of 1PC structures from C03 | proved |  |
| C28 ushd is a distance on induced graphs | Evaluate | counting | proved |  |
| C29 recover_ug is the induced dependence graph | Evaluate | direct | proved |  |
| C30 min_perm_squared_l2_dist returns an optimal row matching | PermDist | permutations model of itertools, min by first | proved | float dtype; exact rationals instead of floats. Integer dtype: C68. |
| C31 permutation distances are blind to what cannot be identified | PermDist | reindexing of permutations | proved | exact rationals |
| C32 generated one-pure-child structures are one-pure-child structures | Sample | rng as arbitrary permutation oracles | proved | Sizes, density (given or drawn), num_latent given or drawn; the generator is any outcome respecting numpy's contract (SampleSpec.possible). Rationals for floats. Concrete instance: a_gen_run. |
| C33 generate, forget, recover | Sample | C32 + C03 + C13 | proved | For the dependence graph with unit diagonal, any set order. |
| C34 Erdos-Renyi structures induce the graph they were generated from | Sample | subgraph direction proved, equality refuted through C11 | partial | False as stated: the refuted theorem exhibits a drawn graph whose structure misses an edge. Proved: edge count of the drawn graph, no invented dependence, every measurement has a parent; the property itself if the drawn graph has no diamond or there are at most five measurements. Holds for all graphs without induced gems and 4-wheels (C143). |
| C35 num_latent is refused without one_pure_child | Sample | case analysis | proved |  |
| C36 random parameters respect the structure | Sample | scatter lemma over Q | proved | Rationals for floats. |
| C37 mcm is reproducible from its rng | Sample | explicit generator heap; refuted | partial | False as stated: line 17 of sample.py does not pass rng to biadj. The exact condition is proved. |
| C38 estimated dependence graphs are simple undirected graphs | Indep | abstract p-value oracle | proved | Any p-value functions; Pool.imap returns results in input order. |
| C39 estimate_UDG is monotone in the significance level | Indep | order reasoning | proved | chi2 quantile assumed monotone. |
| C40 dcov is the sample distance covariance | Indep | exact rational model; refuted, with exact relation | partial | False as stated: squareform drops the diagonal and counts each pair once. The exact relation to the distance covariance is proved; see also C70. |
| C41 dcov and the dcov_fast graph do not depend on units | Indep | exact rational model | proved | Exact rationals for floats. |
| C42 relabelling features relabels the xicor graph | Indep | refuted by a witness sample | partial | False as stated: only the pairs i<j are tested and xi is not symmetric. Exact condition proved: the graph is relabelled iff both directions of the test agree (about the level) on every pair that changed its order; order-preserving selections keep graph and p-values. |
| C43 xicorr depends on ranks only | Xicor | ranks over Q | proved | Exact rationals; argsort is any function that sorts. |
| C44 xicorr reports no dependence on a constant | Xicor | refuted for all x | partial | False for every x if y is constant: coefficient 1, p-value 0. If x is constant the result depends on the order in which the sort leaves the ties: a drifting y gets the coefficient of a monotone relation. |
| C45 unsupported test methods fail loudly and identically | Indep | case analysis on the method string | proved |  |
| C46 fitted weights respect the structure | Models | scatter/gather | proved | the function handed to the optimizer is characterised completely; scipy's minimize is any function that answers a vector of the right length |
| C47 fitting depends only on the data given | Models | state machine; refuted | partial | The property is false of the code: structure is only computed while biadj is empty. Proved: a concrete counterexample for every set order and optimizer, and that after any history (even one starting with a fit that raised) graph and structure stem from the first dataset. |
| C48 a structure given by the user is never changed by fitting | Models | state machine invariant | proved | GaussianMCM; histories of fit and sample calls including raising ones |
| C49 GaussianMCM's graph estimate does not depend on units | ModelsReal | reals; symmetric/diagonal proved, unit-invariance refuted | partial | Unit independence is false for every dataset with two correlated measurements (cov*corr instead of corr*corr); symmetric with False diagonal is proved. Exact criterion: C72. |
| C50 fitted error variances are variances | Models | Heywood case, refuted | partial | False of the code (Heywood case, all exact optima negative). Proved: at an optimum, error variance = sample variance minus explained variance. |
| C51 the least squares objective is exact and rotation-blind | Models | Gram algebra | proved | Stated about the objective function itself (C46 shows it is the one handed to the optimizer). |
| C52 DevMedil can sample after it was fitted | Models | state machine; refuted for every history | partial | False of the code: fit stores W_hat/D_hat, sample looks for W_hat_mle etc., so sample raises ValueError after every history; proved for all histories. |
| C53 DevMedil reports the parameters it optimised | Models | abstract norm oracles; mle proved, lse refuted | partial | Proved for 'mle'; false for 'lse' (absolute values are stored), true when the optimizer returned no negative error variance. Exact difference: C75. |
| C54 every training epoch uses the reparameterisation trick | Ncfa | mode flag state machine; refuted, exact trace proved | partial | False of the code: line 342 switches to eval mode and nothing switches back, so every training pass after the first epoch is made without sampling. Proved: refutation for every network, data and >= 2 epochs; the claim for at most one epoch; C55_training_run gives the exact mode of every pass. |
| C55 mini-batches partition the data and loss histories have one entry per epoch | Ncfa | chunking lemmas | proved | Network, optimizer and loss are an arbitrary learner; numbers are reals instead of floats. |
| C56 the VAE loss is bounded below | ModelsReal | real analysis, exp | proved | torch.inverse is a black box assumed to invert diagonal matrices with positive entries, the nuclear norm one assumed non-negative; torch.det is modelled by Laplace expansion; reals instead of floats. |
| C57 decoder outputs only see their own hidden block | Vae | block mask algebra | proved | Every architecture and weight assignment; reals instead of floats. |
| C58 every decoder weight is a trainable parameter | Vae | registration model; refuted for every depth>0 | partial | False whenever there is a hidden layer (default: one): the hidden layers sit in a plain dict, so they are not registered and keep their random initial values. Exact list of trainable layers proved; true for num_hidden_layers=0. nn.Module registration and the optimizer's reach are modelled, gradients are arbitrary updates. |
| C59 reported weights describe which latents influence a measurement | Vae | refuted | partial | False for the mean (the weights come from the log-covariance path only), true for the log-covariance. |
| C60 the training log is inside the output directory | Ncfa | strings; refuted | partial | False for a path without final slash; exact characterisation proved. The three saved files are always inside. |
| C61 saved artefacts of one fit are consistent after a crash | Ncfa | effect trace, crash prefix; refuted, single-file facts proved | partial | False: a crash while overwriting can leave complete files of two different fits. Exact set of bad crash points proved. A write is modelled as truncate then complete; buffering below the file system is not modelled. |
| C62 the DAG drawn for a structure is that structure | Visualize | builder lemmas | proved |  |
| C63 the causal order used for sampling is a topological order | Scripts | permutation proved, order refuted | partial | False in general: biadj_to_adj symmetrises, so a latent with two children is listed after one of its (or another latent's) children. Exact: all nodes once; topological iff every latent has at most one child. |
| C64 the heuristic is exact precisely on one-pure-child graphs | Heuristic | C03, C04 and uniqueness of the pure-child structure | proved |  |
| C65 the exact search does not return on the empty graph | MaxCliques | the state of the loop never changes; induction on fuel | proved |  |
| C66 reconstruct_cover never produces an answer | Ecc | invariant of the search plus C09 | proved |  |
| C67 zero sfd means equal parent counts | Evaluate | Gram matrices as multisets of rows | proved |  |
| C68 permutation distances use the true weights whatever the dtype of the prediction | PermDist | dtype of zeros_like modelled; witness | partial | False of the code: np.zeros_like copies the integer dtype, so true_W is truncated. Exact: the distance to the true weights rounded towards zero is reported; the dtype is irrelevant for whole weights. |
| C69 permutation distances refuse impossible sizes | PermDist | case analysis on the shapes | proved | numpy broadcasting of a single row and the float dtype of np.array(()) are modelled by hand |
| C70 dcov never exceeds half the distance covariance | Indep | double centring and Cauchy-Schwarz over Q | proved |  |
| C71 constant features are isolated by dcov_fast | Indep | sums over Q | proved |  |
| C72 GaussianMCM's graph is decided by the unit of measurement | Gauss | real inequalities | proved | exact reals |
| C73 outcome of the first GaussianMCM.fit | Gauss | evaluation of fit on a fresh object | proved |  |
| C74 sampled measurements depend on their parents only | Gauss | scatter lemmas; sums over R | proved |  |
| C75 the loss DevMedil reports after least squares overstates the optimum | Dev | norm oracles, linear arithmetic | proved |  |
| C76 the random split is a 70/30 partition | Ncfa | IEEE rounding of 0.7*n by integer arithmetic | proved | floor(0.7*n) is modelled with IEEE rounding (seven_tenths, round_half_even); the 70 percent bound is stated for up to 2^50 rows. |
| C77 the network is trained on standardised data | Ncfa | StandardScaler over R; witness for the refutation | partial | False with explicit split_idcs (raw rows are used); true for the random split, except that a column which varies too little compared with its mean (sklearn's test for constant features) is centred and not scaled. Reals; for the conversion to float32 see C158. |
| C78 fitting the neural model does not depend on the units of measurement | Ncfa | StandardScaler over R | partial | False: sklearn's StandardScaler (>= 1.0) takes a column for constant if its standard deviation is at most about n * mean * 2^-52 and then does not scale it, so that a shift can change the fit. True for changes of units that do not change this verdict; for positive factors alone it suffices that no varying column of the data as given is taken for constant. Over the reals. |
| C79 the loss is the negative evidence lower bound | Loss | real analysis (derivative sign), witness | partial | False: det(cov) is used where log det(cov) belongs; refuted for every batch size, number of measurements >= 1 and number of latents. Exact minimisers of both objectives for any number of measurements: the mean squared residuals, but for the loss divided by a common factor, the (p+1)-th root of their product. |
| C80 noise enters the network in training mode only | Vae | case analysis on the mode | proved | Together with C54 this says that training after the first epoch is deterministic. |
| C81 the nonlinear sampler draws the structural equations | Dag | np.empty as an arbitrary initial memory | partial | Holds iff no latent has two children; otherwise two contents of np.empty give different samples. |
| C82 random coefficients land on the edges | Dag | casting on assignment modelled; witnesses | partial | Holds for float structures; for int structures (always the case in verify_independence_pattern_GP) every coefficient is truncated to 0 and the data are pure noise. |
| C83 generated data respect the structure | Dag | induction over the rows | proved |  |
| C84 the verification compares with the dependence graph | Verify | counting lemmas | proved |  |
| C85 grid_search reports the hyperparameters with the least distance | Grid | loop invariant; attribute names modelled as strings | partial | The loop is right, but grid_search never gets a distance to compare: fit stores W_hat while calculate_metrics reads W_hat_mle / W_hat_lse, so every cell raises AttributeError, which is swallowed; no pair is ever reported. |
| C86 Cross-validation folds partition the rows | Grid | KFold from its documentation; list partition lemmas | proved | sklearn's KFold is modelled from its documented algorithm; the shuffle is an arbitrary permutation. |
| C87 What the cross-validation arrays contain | Grid | induction over folds and cells | proved | For held-out folds of at least two rows (numpy's covariance of one row is nan). |
| C88 the shipped examples are correct | Cover | pairwise incompatible edges as certificates; decision procedures proved sound | proved | Lower bounds by sets of edges no two of which share a clique. |
| C89 the exact search recovers structures with private siblings | Ecc | invariant of the search (EccPriv) | proved |  |
| C90 a reduction that finishes without deletions is optimal | Ecc | exchange argument over covers (Reduce) | proved |  |
| C91 num_meas^2 // 4 latents are enough | Cover | Erdos-Goodman-Posa by induction on n; C91 small cases refuted | partial | Holds for num_meas >= 4 (Erdos-Goodman-Posa plus isolated vertices); false for 1, 2 and 3 measurements, where independent measurements need num_meas latents. |
| C92 the printed bound on the number of cliques is valid | Cover | CoverBounds; witness | partial | One more than the printed number always suffices (Lovasz's bound, proved in Lovasz.v). The printed number itself is valid for graphs with at most n^2//4 edges, for complete graphs, and when the number q of missing edges satisfies q < s(s+1) with s = isqrt(q); false for K5 minus two disjoint edges (prints 3, four cliques are needed): the code uses isqrt(q) instead of the largest t with t^2 - t <= q. |
| C93 one private pair per latent suffices for the exact search | Ecc | witness with one private pair | partial | False: rule_1 subtracts an edge between two simultaneously isolated vertices twice, so Rule 2 misses the last clique and Rule 3 drops its edge. What holds is C89 (a private sibling for every child). |
| C94 Attributes of the reduced graph stay consistent | Ecc | induction over reachability | proved | All reachable states: copies, rules in any order, further cliques. nbrhood_edge_counts is C19. |
| C95 What reconstruct_cover does to a cover | Ecc | induction over deletions | proved |  |
| C96 Rule 3 deletions can be undone | Ecc | induction over deletions (EccUndo); witness | partial | Proved for any number of deletions as long as no clique has been put in the cover. False afterwards: C96_deletions_undone_refuted gives a completed reduction on 6 vertices whose reconstructed cover has a row that is not a clique. |
| C97 reset gives back a fresh graph | Reduce | attributes assigned by __init__; witness | partial | Everything but reduced_away is restored; the stale record makes reconstruct_cover spoil a correct cover. |
| C98 verify_independence_pattern_GP scores the estimate of the measurements | Verify | counting; witness | partial | Counts, match rate and metrics proved relative to the columns the code picks. Those are the first num_meas of the num_latent+num_meas sampled columns, i.e. not the measurements: C98_wrong_columns_refuted shows that as soon as two measurements share a latent an estimate exact for the sampled columns never scores 1. |
| C99 the Gauss kernel is a covariance matrix | Kernel | Schoenberg-type expansion over R: exp as a limit of PSD forms | proved | Exact reals. |
| C100 models do not influence each other through the random generator | Rng | heap of generators; induction over histories | partial | Proved for objects that are given a generator nobody else has. False for the default: default_rng(0) is evaluated once, so all models made without rng, and all models made by mcm whatever rng it is given, draw from one generator. |
| C101 GaussianMCM.sample draws from the distribution that fit matched to the data | Moment | expectation as a linear functional | proved | Expectation is any linear functional on a class of random variables closed under sums and multiples; the moments of rng.multivariate_normal are a hypothesis, met by a concrete finite probability space in C101_instance. It cannot be met with negative error variances: see C160. |
| C102 the reconstruction error measures how badly the data are reconstructed | Recon | real algebra; witness | partial | Proved for the unweighted error (spectral norm of the residual matrix). False for the weighted one, which is negative and largest for a perfect reconstruction (the sign of a log-likelihood), and false for independence of batching: two batches of one row and one batch of two rows of the same data report different errors. |
| C103 biadj and mcm can generate everything that fits their arguments | Sample | explicit inverse: outcomes constructed from the target structure | proved | Outcomes range over the documented contract of numpy's Generator; its distribution is not modelled. |
| C104 what biadj asks of its generator is determined by its arguments | Sample | trace of generator calls | proved | The kind and length of each generator call is recorded in the model's trace. |
| C105 estimate_UDG decides every pair by its own test | Indep | evaluation of the loop over pairs | proved | Exact rationals with infinities and nan for floats; the chi-square quantile, dcor's test and the p-value of xicorr are parameters. |
| C106 xicorr on data without ties is Chatterjee's coefficient, and ties=True is harmless | Xicor | sorted permutations, sums of squares over Q | proved | Exact rationals; norm.cdf(sqrt(n)*xi/sqrt(v)) is a parameter cdf n xi v. |
| C107 the network cannot leave the range set by its output layer | Vae | interval bounds through the layers | proved | Real arithmetic for floats; width_per_meas >= 1. |
| C108 which calls of the models fail and what they leave behind | Errors | case analysis | proved | numpy broadcasting of width-one structures is outside the model (hypotheses exclude it); explicit indices are non-negative. |
| C109 fitting the neural model learns or uses a causal structure | Neural | simulation between two objects | partial | Refuted for every input: two models that differ only in biadj, udg, one_pure_child and the structure-learning hyperparameters make the same passes and end with the same network, weights and losses, and biadj/udg stay as they were (fit never calls _compute_biadj). Proved instead: the network always has one latent per measurement, the reported weights have shape (p, p*width), sample raises NotImplementedError. |
| C110 the seed makes fitting the neural model reproducible | Neural | untrained layers are invariant under replay of the steps | partial | Refuted: torch's generator is never seeded and the decoder's hidden layers are never trained, so processes whose generator initialises such a layer differently end with different networks for every seed, dataset and number of epochs. Proved: the seed fixes the batches of every pass. |
| C111 reported losses are positive | Neural | sign of each summand over R | proved | torch.inverse inverts positive diagonal matrices and torch's norms are >= 0 (hypotheses); real arithmetic. |
| C112 what fitting the neural model does to the random generators | Neural | generator effects as a trace | proved |  |
| C113 GaussianMCM.fit recovers the parameters from an exact covariance | IdentIff | signs and products of loadings are read off the covariance entries between children of one latent; with pure children the squares solve a homogeneous linear system, a nonzero solution of which is turned into a second model by scaling the pure loading by 1/sqrt(1+ex) and the others by sqrt(1+ex); the counterexample rescales the two loadings of a latent with two children and shifts the two error variances | partial | Settled exactly for structures in which every latent has a pure child (all structures that the heuristic search returns, C03): recovery holds if and only if no change of the latents' variances is invisible to the covariances of the measurements other than the pure children (C113_identified_iff), a linear condition on the weights that holds whenever every latent has a pure child and two further children sharing no other parent (C113_three_children_visible, C113_exact_recovery_partial). The property as stated, for every structure, is false: refuted whenever some latent has at most two children (the toy model of the scripts). Structures with a latent without pure child (possible with the exact search) and at least three children are not settled. |
| C114 the penalised likelihood DevMedil minimises is bounded below | Mle | the likelihood is bounded on positive variances through an LDL factorisation of both matrices and x - 1 >= ln x; unboundedness at negative variances along an explicit ray | partial | Refuted for every dataset with two or more measurements: finite values below every bound, at negative error variances, so what fit stores is never a minimum. Proved where all error variances are positive and the sample covariance is regular: finite, bounded by the saturated value plus penalties, with equality exactly at an exact fit. Exact linear algebra is a hypothesis, met by Gaussian elimination (MleInstance.v). |
| C115 the error variances DevMedil reports are determined by the data | Mle | positive definiteness has a margin, so subtracting small variances leaves a positive definite matrix, whose LDL factor gives the weights | partial | Refuted: without penalties every vector of sufficiently small positive error variances is optimal for suitable weights. Exact: the optimal error variances are those that leave a positive semidefinite matrix when subtracted from the sample variances (least squares: all real vectors, all data; likelihood: positive ones, regular data); they are at most the sample variances, closed downwards and convex. For one_pure_child=False and fewer than four measurements (fewer latents than measurements) nothing is claimed. |
| C116 an explicit 0/1 structure is treated like the same boolean structure | Dtype | numpy assignment through an integer index modelled; counting ones; functional extensionality for equal objectives | partial | False for integer structures, which numpy uses as row indices: ValueError whenever every measurement has a parent and one has two (all of medil.examples), IndexError for one latent; if every measurement has exactly one parent the call succeeds but ignores the structure (rows 0 and 1 both get all weights) and cannot reproduce two uncorrelated clusters. numpy's integer-array assignment is modelled from its documentation. |
| C117 models fitted at the same time do not disturb each other's files | Fs | fits as lists of file operations interleaved by a schedule; file names of different directories are disjoint, so the restriction of any run to one fit is its run alone; explicit schedules for the shared path | partial | True if no other fit has the same directory (at every moment, for every schedule and crash); false for the shared default path: whatever two fits write, some schedule leaves the network of one with the losses of the other, and a file can hold bytes of both. A log entry is one append; a saved file is a truncation and a sequence of writes of any sizes. |
| C118 the training log loses no line and keeps the order | Fs | invariant over the schedule: the log is the old content followed by tagged lines, and each fit is either still logging or has only saves left | proved | By an invariant over the schedule. A line is one append (mode 'a', shorter than the buffer, closed after each line). |
| C119 constructing a NeuroCausalFactorAnalysis provides its output directory | Fs | case analysis of mkdir(exist_ok=True) on directory and file tables | partial | Success is characterised exactly; false for nested paths with a missing parent (FileNotFoundError, mkdir without parents=True). Links, permissions, '.', '..' and doubled slashes are not modelled. |
| C120 parallel p-values depend neither on the number of processors nor on the schedule | Pool | Pool.imap as a transition system (task queue, workers, reorder buffer, consumer); invariant for every schedule with kills; decreasing measure over fair rounds; a lost chunk stays lost | partial | Values, order and first exception are proved for every schedule and every crash; termination for fair schedules in which no worker process dies. False with a crash: a worker that dies while it holds a chunk takes it with it and estimate_UDG waits for ever. multiprocessing.Pool.imap is modelled from the source of the Python library. |
| C121 GaussianMCM().fit finds the model behind the data | Consist | estimation criterion against the bounds x/2 <= 1 - exp(-x) <= x with x = log n / n; recovery of one-pure-child structures (C03); explicit Lipschitz bounds for the parameters of one row from three covariances; constants made uniform by induction; exact data built from signed rows of a factor | proved | The deterministic half of consistency: constants exist for every model; that random samples have such covariances with high probability is not part of the model. Data with exactly the model's covariance are constructed for every number of observations. C121_cancelled_refuted shows that the hypothesis on cancelled dependences cannot be dropped. |
| C122 find_clique_min_cover leaves the caller's arrays alone | Heap | arrays as cells of a heap; every method of the reducible graph is shown to commute with reading the heap and to write only arrays of its own node (frame invariant), by induction over the depth of the search | partial | Proved on a heap model by refinement to the value model used elsewhere. The last clause is false for graphs without edges: there the returned array is the argument itself, so writing to the result overwrites the graph (refuted for every such graph; proved for all others). |
| C123 graph objects describe their current adjacency matrix | UdgHeap | programs over a heap of arrays and a list of objects; invariants over programs that leave an array untouched; counterexamples for every graph | partial | Proved: num_edges is right as long as the array is not changed otherwise than through the object since the last edit, and copies describe the graph as long as the array is not changed since make_aux. Refuted beyond that, for every graph: two objects on one array, add_edges after make_aux, and make_aux on an edgeless graph followed by add_edges. |
| C124 the distances do not depend on the dtype of the structures | EvalInt | machine arithmetic modulo 2^w after every operation; stored and exact sums agree modulo 2^w, and are equal when in range; witness with 2^w latents for every width | partial | False as stated: recover_ug multiplies in the dtype of the structure, so in a w-bit array a dependence with a multiple of 2^w common parents disappears and a structure can have distance (0, 1) from itself. Proved: exact whenever the number of latents is below 2^w for each array and (measurements * latents)^2 < 2^63; always so for bool; and exactly which dependences are lost. |
| C125 permutation distances survive rounding | PermFloat, PermInf | Flocq rounding to nearest even in FLT(-1074, 53); additions have relative error only, squares relative plus underflow error; any summation tree over nonnegative numbers; the exact invariances hold because the candidates are the same numbers; with overflow the run is the image of the one with unbounded exponents, and a sum of squares with one infinite or nan term is infinite or nan. | partial | IEEE binary64 with gradual underflow, overflow, infinities and nan (Flocq). False in two points: distance 0 does not mean an exact match, because squares of small differences underflow (then all differences are at most 2^-537); with an infinite or nan entry no search takes place, the rows are reported in the order given, and their order decides between infinity and nan. Finite entries whose distance is 2^1024 or more give infinity and the order given. |
| C126 the plots show what they are given | Vis | Plots are lists of artists (positions, arrows, texts, pixels, ticks) computed as the code does, with dictionaries of positions and name resolution of the module; the statements speak about texts, arrows and pixels only. | partial | show_dag and show_obs_dcor_mat are proved correct (labels of non-square matrices are characterised exactly). show_obs_adj_mat and show_pairwise_plot always raise NameError before they show anything: refuted for every input. Rendering by matplotlib is not modelled. |
| C127 the experiments of developing.py report their results | Bench | The drivers run on top of the models of grid_search, grid_search_kfold (C85, C87) and DevMedil.fit, for arbitrary data, optimiser and generators; output is a trace of messages and saved figures. | partial | Proved: every plot has its own file, the validation panels are right, all pairs of hyperparameters are tried, the messages and files come in the announced order. Refuted for all inputs: distance and SFD panels contain only nan, file numbers are one less than the announced ones, and benchmark_graphs_deep_dive raises on its first graph. |
| C128 the scripts run to their end | Script | Top-level statements with the names they evaluate and bind, run in an arbitrary world of installed packages; a blocking statement lemma by induction on the prefix. | partial | False for both scripts in every environment (Python before 3.14): developing.py ends at the latest in line 756 (annotation Tuple is not imported), pgm_demo.py in line 4 (no module medil.functional_MCM). Proved: every name developing.py takes from medil exists. |
| C129 the exact search is right on graphs without diamonds | Diamond | The closed common neighbourhoods of the edges (and the isolated vertices) are shown to form a structure with private siblings (C89), to be the maximal cliques, and to have the graph as dependence graph; C89 gives the run of the search. | proved | For all graphs of this class; C11/C12 show that the search is wrong on some other graphs. |
| C130 the exact search is right for up to five measurements | Small | A nondeterministic version of the search (Explore.v) is proved to contain the result of every set order (ExploreProofs.v); it is evaluated by the kernel on the graphs that have a diamond, the others are settled by C129. Lower bounds by a proved exhaustive search over cliques. | proved | Proved with a verified exploration of all orders (all_results_complete) and C129 for the graphs without diamonds. The octahedron shows that five is best possible: every order misses an edge there. |
| C131 max_cliques is worst-case optimal | CliqueCount | Moon-Moser recurrence (function moon with moon(n)^3 <= 3^n) by strong induction over the candidates of a frame of the stack; the pivot maximises its neighbours, so the frames opened below one with k tried vertices have at most n-k candidates. Attainment: an injection from the choices of one vertex per group. | proved | The bound depends on the choice of the pivot with most neighbours among the candidates, on the removal of tried vertices and on the pruning by the pivot's neighbours. |
| C132 the cost of the exact search is bounded | Cost | A copy of the search with a counter, proved to erase to the search of EccModel.v; bound of the calls by induction over the depth with the bound of C131 on the cliques of a node; sufficiency of the fuel from the measure "extant edges" and C131. | proved | Counted version of the search with an erasure theorem. The model runs the generator max_cliques to its end where the code may stop early, so the bound is an upper bound for the code. |
| C133 the exact search has no superfluous latents | NewEdge | Invariant through rules 1-3, the branching and the outer loop; count by an injection from the rows to edges. | proved | Invariant of the reduction and of branch: edges still in the reduced graph are not inside a row of the cover. |
| C134 printing parameters shows the current ones | Param | vars() as an association list with Python dictionary semantics; induction over the history; unique decomposition of the joined lines. | proved | How numpy formats a value is a parameter; the last theorem shows why one-line values are required. |
| C135 fitting solves a least squares problem that has a solution | Lsq | The error variances are free, so only the off-diagonal misfit counts; a cluster with three pure children contributes (x-ab)^2+(y-ac)^2+(z-bc)^2, whose infimum (the square of the smallest covariance) is approached but not attained when xyz < 0 or exactly one covariance is zero; otherwise an explicit exact solution. For larger latents the problem splits into one per latent, and a latent either attains its minimum on a box or is beaten by letting one weight grow without bound. | partial | False: if a latent has exactly three children, all pure, whose sample covariances have a negative product (or exactly one is zero), every parameter choice, hence whatever fit reports, can be strictly improved; fit learns such structures itself. Exact characterisation when no measurement has two parents (any number of children per latent); positive products of covariances suffice. With shared children: a best choice exists for all data close enough to a model with three children per latent (as in C121); an exact condition for arbitrary data is missing. |
| C136 the penalised least squares problem has a solution | Nuc | A Lipschitz function on a box attains its minimum (induction over the dimension, infimum by completeness, extreme value theorem); the profile objective is Lipschitz on boxes and the penalty bounds every weight on a sublevel set; without penalties an exact fit is constructed from a factorisation of a diagonally dominated covariance. | proved | The nuclear norm is a parameter specified by its duality with the spectral norm; an instance is constructed. |
| C137 what a penalty does to the weights | Nuc | The off-diagonal misfit decreases at most quadratically in the largest weight while the penalty grows linearly. | proved |  |
| C138 the weights DevMedil reports are determined by the data | Nuc | For every penalty a covariance at which the nuclear-norm and entrywise bounds tie the empty model with a one-latent model. Orthogonal invariance of the nuclear norm by duality (turning a contraction gives a contraction); a plane rotation that makes a chosen weight zero. | partial | False for every penalty. mu_reg = 0 and at least two latents: each single reported weight is zero at another point with the same objective value (rotation of the latents). lam_reg + mu_reg > 0, lse: there are data on which the model without influences and one with influences are both best. Proved: both objectives are invariant under rotations for mu_reg = 0 and under order and signs of the latents always. |
| C139 The final validation loss is the loss of the returned network | Neural | The trace of the fit is replayed; validation passes leave the network alone, so those of the last epoch were made with the network that is returned; closed form of the loss row by row. | proved | torch.inverse inverts positive diagonal matrices (hypothesis); real arithmetic; the loss is the closed formula of C56. |
| C140 inputs about different numbers of measurements are refused | Shape | Shapes are explicit; numpy broadcasting of axes of length one is a case distinction; the broadcast objectives are rewritten as the ordinary ones for repeated data. | partial | True unless one side has exactly one measurement; then numpy broadcasts, and what is computed instead is given exactly: sfd treats the single measurement as all measurements, true weights are repeated, GaussianMCM.fit succeeds but no sample can be drawn afterwards, validation_lse takes the single variance for every covariance. (validation_mle can also end with the exception of a singular matrix or with infinity.) |
| C141 the generators of sample.py survive rounding | SampleFloat | The structure depends on the density only through the number of edges, so the exact proofs are reused; error of one product by half an ulp, ties by the definition of rounding to even; floats of known magnitude are multiples of a power of two, which excludes reaching 2. | partial | Structures, ranges and reachability of structures are proved with IEEE rounding (fewer than 2^53 possible edges; rng.random returns multiples of 2^-53). False in two points: the product density * max_num_edges is rounded first, so the number of edges can be the second nearest integer (proved: at most max_num_edges / 2^53 beyond one half, and nearest otherwise); and some float64 numbers in [0.5, 2), e.g. 0.5 + 2^-53, are never drawn. |
| C142 what the loss histories of a neural fit contain | NeuralRun | The trace of the fit is replayed epoch by epoch with an explicit trajectory of networks, optimizer states and generators; every pass is rewritten by the closed form of the loss; the trajectory is constant when steps change nothing; with one batch the network before an epoch is the one validated last. | partial | The contents of the four histories are proved for every run. False in the last clause: on the same rows and for the same network the training loss exceeds the validation loss by the penalties times the average of 1/(rows in the batch); the exact difference and the agreement of the errors are proved. |
| C143 the exact search is right on graphs without gems and 4-wheels | Nested | Among the neighbours of a vertex the neighbourhoods of two adjacent ones are nested, so in a maximal clique the member with the fewest common neighbours is a private sibling; hence the hypotheses of C89 hold for the list of maximal cliques. The two failing graphs are run by the kernel. | proved | The positive part is proved for the whole class (it contains the class of C129). The boundary is shown by two concrete runs: with one more vertex joined to a gem or to a wheel the search misses an edge (6 vertices, ascending set order). |
| C144 the numbering of the measurements does not matter | Relabel | A renumbering has an inverse; maximal cliques, maximum independent sets, domination and one-pure-child structures are carried along it; then C143, C03, C04 and C05 for both runs. The refutations are pairs of runs evaluated by the kernel; the estimated graph by the criterion of C72. | partial | False in general: with the same set order, one numbering of a 6-vertex graph gets a cover and another misses an edge; the heuristic answers for one numbering of a chain of four and raises TypeError for another. Proved: the exact search on all graphs without gems and 4-wheels, the heuristic and fit on all graphs of one-pure-child structures, for any set orders in the two runs; on all graphs the number of latents found by the heuristic, and whether it answers for every set order, do not depend on the numbering; fit's estimated graph is always renumbered. |
| C145 the order of the observations does not matter | Reorder | The list of y ranks in the order of x is the unique sorted list of pairs when x determines y; sorted quantiles and means are permutation-invariant; means and covariances are sums over a permuted index set, so every later step receives the same function. | partial | False for xicorr with ties in x, whatever sorting routine is used (a dataset of three rows is constructed for every routine); proved for xicorr and the xicor graph when equal values of x come with equal values of y, and without condition for GaussianMCM().fit (any environment, exceptions included) and DevMedil, in real arithmetic. The dcov methods are in C41. |
| C146 xicorr judges every pair of samples | XiRange | An average rank is the mean of the ranks with ties broken forwards and backwards, which are permutations, so sums of convex functions of average ranks are bounded by those of 1..n; the variance estimate is the mean square of the doubly centred matrix of minima, which vanishes only for constant lists. | proved | The coefficient is 1 exactly if y is constant; the tie-corrected variance is positive exactly if y is not. A single observation gives nan twice. Exact rationals instead of floats. |
| C147 The reported distances are distances | Metric | Minkowski from Cauchy-Schwarz; the composition of the two optimal row orders is a candidate of the third search; the inverse order gives symmetry. The counterexamples are evaluated by the kernel. | partial | The square roots of the reported numbers satisfy the triangle inequality, missing latents included, and the permutation distances are symmetric for equally many latents. The reported numbers themselves are squares and violate the triangle inequality (refuted for all three functions). |
| C148 xicorr treats integer and boolean arrays as the numbers they hold | XiData | The sum of squared average ranks is that of 1..n minus a sum of squared differences between forward and backward tie-breaking, which depends only on which values are equal; two's complement is injective on the range of the type. | partial | True for signed and unsigned integers of any width: the normaliser depends only on which values are equal. False for booleans: numpy refuses to negate them, so every such call raises TypeError. |
| C149 Infinite and missing values in xicorr | XiData | Replacing infinities by a bound keeps all comparisons, so the ranks are the same; with a nan the ranks of x do not depend on x. | partial | Infinite values and a nan in y are handled. A nan in x is not noticed: rankdata returns only nan, all recorded values of x are disregarded, and the coefficient is that of y against the order in which nans are sorted (with an increasing y and the stable order the largest possible coefficient). rankdata with its default nan_policy (scipy 1.10 or later). In the graph of method="xicor" a nan prevents the edge if it is in the later column and goes unnoticed in the earlier one. |
| C150 xicorr survives rounding | XiFloat | Relative error bounds carried through each rounded operation, against a lower bound for the exact variance of a non-constant y (at least 1/(16 n^2)); the counterexample by exact evaluation of each rounding. | partial | Coefficient: within n/2^46 of the exact one up to 2^20 observations, at most 1, equal to 1 exactly for a constant y. The variance is positive (the p-value a number) up to 16000 observations if y is not constant. False if y is constant: the exact variance is 0 (p-value 0, an edge in the graph, C44), but with five observations the computed one is negative, the p-value nan and there is no edge. Missing: more than 16000 observations, and how accurate the p-value is. |
| C151 a missing or infinite value concerns its own measurement only (dcov_fast) | NanGraph | Arithmetic on finite, infinite and missing values by cases; a bad value makes every centred distance of its column nan or infinite minus infinite, and a comparison with nan is false. | proved | Values are rational numbers, the two infinities or nan; arithmetic on the finite ones is exact. |
| C152 fitting with missing or infinite values | NanFit | The covariance of a column with a bad value is nan; a sum with a nan term is nan, so the objective is the constant nan and the optimizer receives the same function. | partial | Holds for the estimated graph of GaussianMCM; false for its parameters: one such value makes the objective nan everywhere, so weights and error variances of all measurements do not depend on the recorded values, and nothing is refused. DevMedil: method lse refuses (ValueError), method mle does not and its objective is nowhere a number. |
| C153 what dcov_fast can find in small samples | SmallSample | The distance variance written by means of squares; Cauchy-Schwarz for covariances of centred distances; each squared distance is bounded with the help of the triangle inequality. | proved | Exact arithmetic. The critical value chi2.ppf(1 - level, 1) is a parameter; that it is 3.84... at level 0.05 is not proved. |
| C154 dcov_fast survives rounding | DcovFloat, DcovInf | A calculus of absolute errors relative to the size of the terms (at least the mean distance, which absorbs underflow), carried through each rounded operation and summation tree; the mean square of the sizes is at most 49 n times the squared mean distance because a distance is at most the sum of two row means. | partial | IEEE binary64 with gradual underflow. The statistic is within n^2 K / 2^46 of the exact one if the mean distances of both measurements are at least 2^-400, K = 8 H + 2 H2 + 42 for summation depths H and H2. Symmetry and isolation of constant measurements hold without condition. False for the unit of measurement: if all values are below 2^-600 the products underflow and no edge is ever found, although the exact graph does not depend on the unit. With overflow, infinities and nan: measurements up to 2^400 in size do not overflow anywhere (up to 2^26 observations); with mean distances from 2^514 on no edge is ever found. The arithmetic with infinities and nan is proved equal to Flocq's bit-level IEEE 754 operations (C154_arithmetic_is_ieee). |
| C155 the Gaussian graph survives rounding | GaussFloat | Errors of mean, centred values, covariances, standard deviations and the strength bounded one rounded operation after the other against the size of the values and the smallest variance; logarithm and threshold compared through monotonicity of ln; the counterexample by exact evaluation of each rounding. | partial | binary64 with gradual underflow, overflow, infinities and nan included: nothing overflows for values up to 2^400, and a measurement with two observations that differ by 2^514 has no edge whatever the data, although exact arithmetic joins it with everything it is correlated with. np.cov and np.corrcoef are modelled operation by operation; summation orders are arbitrary trees, the logarithm any function accurate to 2^-49 relative. Decisions agree when the strength differs from the threshold by at least K B^4 / (2^42 v) + 2^-43, K = 2H + 2H2 + 10, for values of size at most B and variances at least v. The part about constants is false: five observations of 2^53 - 1 in two columns (their computed mean is 2^53 - 2) are reported dependent (C155_constant_refuted; numpy adds fewer than 8 values one after the other). True for constants whose multiples up to n are representable (C155_constant_partial). |
| C156 NCFA can be trained on a GPU | Device | Every tensor carries its device; the forward pass is evaluated in an error monad and shown equal to that of VaeModel.v on the CPU (refinement through all loops); on the GPU the first sparse layer meets a mask on the CPU. | partial | False on every machine with a GPU: no fit succeeds. Masks are plain attributes and hidden layers sit in a plain dict, so Module.to leaves them on the CPU and the first pass raises RuntimeError; with num_epochs = 0 the files are written and Tensor.numpy raises TypeError. Without GPU (or after setting the attribute device to the CPU) fit is the one of NeuralModel.v (refinement). torch's device rules are modelled: pointwise operations need one device, except with scalars without dimensions on the CPU; functional.linear needs one device; Module.to moves registered parameters only. |
| C157 the logged number of parameters counts all weights | Device | Sums over the lists of registered and of used layers. | partial | False whenever there is a hidden layer (default: one): the exact logged number and the exact number of weights are given, the difference are the weights and biases of the hidden layers. |
| C158 the network is trained on the recorded values | Float32 | Relative error of rounding to nearest (Flocq); standardised values are at most the square root of the number of rows because their squares have mean 1; times near 1.7e9 lie in one rounding interval. | partial | The loader converts to single precision. With the random split the standardised values are passed with an error of at most sqrt(n)/2^24 and never overflow (unless sklearn takes a varying column for a constant, see C78). False with explicit split_idcs, where raw values are used (C77): datasets that round alike give the same run, e.g. times in seconds since 1970 within 64 s are all equal. Arithmetic of the network and the scaler is exact in the model. Infinities arise exactly for values of size at least 2^128 - 2^103. |
| C159 missing values do not spoil the neural model silently | NcfaNan | nan propagates through the residual, both matrix products, the sum over the batch and the sums over batches and epochs, whatever the network returns; every row is in one of the two parts; on complete data all operations reduce to those on numbers. | partial | Infinite values are refused (ValueError). False for nan: the scaler lets it pass (and standardises the recorded values as if they were all), and with the random split one nan anywhere makes all training or all validation losses and errors nan, for every network and optimizer, unless torch's SVD raises (then fit raises in the first epoch). Explicit split_idcs that avoid incomplete rows avoid the problem. On complete data the model is the one of NcfaModel.v/NeuralModel.v (refinement). Assumed of torch: the spectral norm of a matrix with nan is not a number. |
| C160 samples from a fitted model vary as the data did | Mvn | Any singular value decomposition of a diagonal matrix has u s u^T = |diag|: multiplying from both sides relates the columns of u and v, so s_k = |v_i| wherever u_ik is not 0; then bilinearity of covariances, as for C101; the counterexample is the one of C50. | partial | False in general: fit does not bound error variances (C50), and numpy's SVD method draws negative ones with their absolute value, so after every best fit of some data with positive definite covariance a sampled measurement varies more than the data, by exactly twice /v/. True for measurements with nonnegative error variance. numpy gives only a RuntimeWarning, exactly if some variance is below -tol/(2-tol), tol=1e-8. SVD modelled as any routine that returns a singular value decomposition over the reals. |
| C161 fitted parameters follow the units of measurement | Units | A best solution is stationary in every single weight (a quadratic in the change of one weight that is never negative has no linear term); stationarity before and after doubling one measurement leaves only that measurement's residual; conversely exact pairs are a lower bound in all units. | partial | False in general: a dataset with positive definite covariance, four measurements of one latent, for which every best fit before and every best fit after doubling one measurement imply different covariances. Exact condition (weights nonzero on the structure): best in all units if and only if all covariances of measurements with a common parent are reproduced exactly. Always true for a common factor. Existence of best fits in the example by C135. |
| C162 what DevMedil finds does not depend on the units | DevUnits | The nuclear norm is homogeneous (a supremum over contractions), the misfit is of degree 4 in the unit; small units by C137 (strong penalty), large units by comparing the empty model with one latent that explains one pair; existence of solutions by C136. | partial | False with any penalty, however small, for every dataset with two correlated measurements: in some units the only best model has no influences, in others every best model has some. Exact relation: multiplying the data by c is the same as dividing both penalties by c^3. True without penalties and with as many latents as measurements, even for different factors per measurement. The likelihood (method='mle') has no best parameters at all (C114). |
| C163 fitting treats unrelated groups of measurements separately | Groups | The misfit splits into the misfits of the two groups and a constant (implied covariances between the groups are 0); exchanging the parameters of one group keeps the parameters admissible. | proved |  |
| C164 the heuristic treats unrelated groups of measurements separately | Union | Independent sets of the whole graph are those of the groups joined; so are the maximum ones and the dominating ones; with C05 and heuristic_any_choice this gives the answers. | proved |  |
| C165 the distances of unrelated groups of measurements add up | UnionEval | Common parents are block diagonal, and so are the double sums. Permutation distances: an order that mixes the groups is untangled by exchanging two rows at a time, which costs nothing if no product of weights is negative. | partial | True for both numbers of sfd and for the distance of absolute weights. False for min_perm_squared_l2_dist when weights are negative: the best order can give a latent the name of a latent of the unrelated group, and the distance is then less than the sum (never more); true if no weight is negative. Exact rationals; equal numbers of estimated and true latents in each group. |
| C166 measurements that are independent in the sample are left unconnected | InSample, InSampleXi | Independence in the sample makes the list of pairs of values, repeated n times, a permutation of the product of the two lists, so double sums factor. For xicor: m zeros and m ones, the second column ascending within each group along the order the sorting routine chooses; one descent bounds the coefficient from below, the spread bounds the variance from above. | partial | True for dcov_fast (critical value not negative) and for the graph of GaussianMCM: the distance covariance, respectively the covariance, is 0; the statistic of dcov_fast is then -1/2 instead of 0 (cf. C40, C70). False for xicor: ties in the first measurement are broken by position, so that for every level there is a sample with independent, non-constant columns that are connected. Exact arithmetic. |
| C167 a measurement is connected with its copies | Copies | xicor: along the order of the first measurement the ranks of the second are monotone, so few_descents (C166) applies. dcov_fast: closed form of the centred distances when one observation differs. GaussianMCM: C72_criterion. | partial | True for xicor, and more generally whenever the later measurement never decreases (or never increases) as the earlier one increases. False for dcov_fast: if one observation differs from all others, the statistic of a measurement and its copy is 1 - 1/(2(n-1)), below every critical value of at least 1, whatever n (true for two values taken equally often, C153). False for GaussianMCM: copies are connected exactly if their sample variance exceeds 1 - n^(-1/n), which depends on the units. Exact arithmetic. |
| C168 leaving measurements out | LeaveOut | An entry of the estimated graph depends on two columns and their order only, and an increasing selection keeps the order. Independent sets of the part are independent sets of the whole. Any graph is extended by one latent with a private measurement for each edge and each vertex, where C03 applies. | partial | The graph and the number of latents are proved (for the exact search on the graphs of C143, where it is right; graphs of dcov_fast, dcov_big, xicor and GaussianMCM; with given p-values the user selects the rows and columns). False for the existence of an answer: every measured graph is what is left of one for which the heuristic recovers the structure in every order, including those for which it raises TypeError in every order. |
| C169 copies share their latents | Twins | Maximum independent sets, edge clique covers and maximal cliques are carried over in both directions along the map from copies to originals; closed neighbourhoods of copies are equal. Data: C167_xicor_connects. | partial | The heuristic: proved for all graphs (up to the order of the latents and of set iteration), and together with xicor for data with enough observations in which copies are next to each other. The exact search: on the graphs of C143 only. With dcov_fast and GaussianMCM copies need not be connected (C167). |
| C170 counting observations several times | Repeat | Distances between rationals are finite weighted sums of squared differences (induction on the sorted sample), so the doubly centred distances are a Gram matrix and the distance covariance a sum of squares. Repetition keeps it and divides the share of the diagonal (C40) by the number of repetitions. | partial | Proved for dcov_fast, with the fact behind it that the distance covariance of two samples is never negative. False for GaussianMCM: np.cov divides by n - 1, so counting both of two observations twice can remove the connection. Nothing is proved about xicor. What a distance covariance of zero means: C171. Exact arithmetic. |
| C171 the distance covariance recognises dependence | Dependence | The squares behind C170 are thresholds between neighbouring values; if all of them vanish, being below one threshold is uncorrelated with being below another, and equality with a value is the difference of two thresholds. The other direction is C166. | proved | Exact arithmetic on rational data; chi-square quantiles are arbitrary positive numbers. For a dataset without repetitions see C153 and C167: the number of observations can be too small for any connection. |
| C172 the matrix of distance covariances is a covariance matrix | DcovMatrix | Every entry of the matrix is an inner product of two vectors of centred distances over the pairs of observations, divided by n squared; a quadratic form is a sum of squares. The statistic of a pair is at most the geometric mean of the two own statistics. | proved | Exact arithmetic on rational data; holds although dcov drops the diagonal of the centred distances and counts each pair once (C40), because every entry is a sum of products over the same pairs. Chi-square quantiles are arbitrary positive numbers. For binary64 arithmetic see C154. |

## Print Assumptions of every theorem

Generated from the output of the `Print Assumptions` command that follows each theorem in the `Properties*.v` files. `-` means "Closed under the global context"; the letters are axioms of Coq's standard library:
`S` = ClassicalDedekindReals.sig_forall_dec, `N` = ClassicalDedekindReals.sig_not_dec (both used by the construction of the reals), `F` = FunctionalExtensionality.functional_extensionality_dep, `C` = Classical_Prop.classic. No other axiom occurs.

| theorem | file | axioms |
|---|---|---|
| C01_max_cliques_enumerates_maximal_cliques | PropertiesMaxCliques.v | - |
| C02_max_cliques_terminates | PropertiesMaxCliques.v | - |
| C03_heuristic_recovers_one_pure_child | PropertiesHeuristic.v | - |
| C04_heuristic_explains_every_dependence | PropertiesHeuristic.v | - |
| C05_always_answers_iff | PropertiesHeuristic.v | - |
| C05_depends_on_set_order_refuted | PropertiesHeuristic.v | - |
| C05_empty_graph_refuted | PropertiesHeuristic.v | - |
| C05_heuristic_total_refuted | PropertiesHeuristic.v | - |
| C05_never_answers_iff | PropertiesHeuristic.v | - |
| C05_outcome_partial | PropertiesHeuristic.v | - |
| C06_heuristic_rows_are_cliques_refuted | PropertiesHeuristic.v | - |
| C07_heuristic_at_most_any_cover | PropertiesHeuristic.v | - |
| C08_search_terminates_without_raising | PropertiesEcc.v | - |
| C09_rows_are_nonempty_cliques | PropertiesEcc.v | - |
| C10_left_out_vertices_are_appended | PropertiesEcc.v | - |
| C11_depth_limit_refuted | PropertiesEcc.v | - |
| C11_edge_cover_nested_partial | PropertiesNested.v | - |
| C11_edge_cover_partial | PropertiesDiamond.v | - |
| C11_edge_cover_refuted | PropertiesEcc.v | - |
| C11_every_order_refuted | PropertiesSmall.v | - |
| C12_minimum_nested_partial | PropertiesNested.v | - |
| C12_minimum_partial | PropertiesDiamond.v | - |
| C12_minimum_refuted | PropertiesEcc.v | - |
| C13_search_recovers_one_pure_child | PropertiesEcc.v | - |
| C14_edgeless_returned_unchanged | PropertiesEcc.v | - |
| C15_filled_diagonal_partial | PropertiesEcc.v | - |
| C15_without_edges_partial | PropertiesEcc.v | - |
| C15_zero_diagonal_refuted | PropertiesEcc.v | - |
| C16_edge_numbering_bijective | PropertiesGraph.v | - |
| C17_make_aux_records_common_neighbourhoods | PropertiesGraph.v | - |
| C18_edge_operations_consistent | PropertiesGraph.v | - |
| C19_counts_exact_before_cover_partial | PropertiesEcc.v | - |
| C19_counts_exact_refuted | PropertiesEcc.v | - |
| C19_counts_never_too_large_partial | PropertiesEcc.v | - |
| C20_reduction_stays_reachable | PropertiesEcc.v | - |
| C20_rule_2_adds_only_useful_cliques | PropertiesEcc.v | - |
| C21_deleted_vertices_put_back_refuted | PropertiesEcc.v | - |
| C22_run_without_rule_3_and_limit_is_a_cover | PropertiesEcc.v | - |
| C23_nde_text_determines_graph | PropertiesNde.v | - |
| C23_nde_text_reads_back | PropertiesNde.v | - |
| C24_sfd_symmetric_and_order_blind | PropertiesEvaluate.v | - |
| C25_sfd_dominates_ushd | PropertiesEvaluate.v | - |
| C26_zero_sfd_identifies_refuted | PropertiesEvaluate.v | - |
| C27_zero_ushd_identifies_one_pure_child | PropertiesEvaluate.v | - |
| C28_ushd_is_a_distance_on_induced_graphs | PropertiesEvaluate.v | - |
| C29_recover_ug_is_the_dependence_graph | PropertiesEvaluate.v | - |
| C30_optimal_row_matching | PropertiesEvaluate.v | - |
| C31_abs_below_plain | PropertiesEvaluate.v | - |
| C31_row_order_irrelevant | PropertiesEvaluate.v | - |
| C31_signs_irrelevant | PropertiesEvaluate.v | - |
| C31_zero_iff_same_rows | PropertiesEvaluate.v | - |
| C32_generated_structure_is_one_pure_child | PropertiesSample.v | - |
| C33_generate_forget_recover | PropertiesSample.v | - |
| C34_drawn_graph_partial | PropertiesSample.v | - |
| C34_exact_nested_partial | PropertiesNested.v | - |
| C34_exact_on_diamond_free_partial | PropertiesDiamond.v | - |
| C34_exact_up_to_five_partial | PropertiesSmall.v | - |
| C34_induced_graph_is_a_subgraph_partial | PropertiesSample.v | - |
| C34_induces_the_drawn_graph_refuted | PropertiesSample.v | - |
| C35_impossible_sizes_refused | PropertiesSample.v | - |
| C35_num_latent_refused | PropertiesSample.v | - |
| C36_means_and_variances_are_the_draws | PropertiesSample.v | - |
| C36_other_parameterizations_refused | PropertiesSample.v | - |
| C36_parameters_respect_the_structure | PropertiesSample.v | - |
| C37_mcm_reproducible_refuted | PropertiesSample.v | - |
| C37_reproducible_iff_same_structure_partial | PropertiesSample.v | - |
| C38_estimated_graph_is_simple | PropertiesIndep.v | - |
| C39_monotone_in_the_level | PropertiesIndep.v | - |
| C40_dcov_is_distance_covariance_refuted | PropertiesIndep.v | - |
| C40_dcov_is_half_without_diagonal_partial | PropertiesIndep.v | - |
| C41_dcov_observation_order | PropertiesIndep.v | - |
| C41_dcov_shift_and_scale | PropertiesIndep.v | - |
| C41_dcov_symmetric | PropertiesIndep.v | - |
| C41_graph_does_not_depend_on_units | PropertiesIndep.v | - |
| C41_graph_observation_order | PropertiesIndep.v | - |
| C41_relabelling | PropertiesIndep.v | - |
| C42_order_kept_partial | PropertiesIndep.v | - |
| C42_relabelling_iff_partial | PropertiesIndep.v | - |
| C42_symmetric_tests_relabel_partial | PropertiesIndep.v | - |
| C42_xicor_relabelling_refuted | PropertiesIndep.v | - |
| C43_xicorr_depends_on_ranks_only | PropertiesIndep.v | - |
| C43_xicorr_of_a_monotone_relation | PropertiesIndep.v | - |
| C44_constant_first_refuted | PropertiesIndep.v | - |
| C44_constant_reported_dependent_refuted | PropertiesIndep.v | - |
| C45_unsupported_methods_raise | PropertiesIndep.v | - |
| C46_fitted_parameters_respect_the_structure | PropertiesGauss.v | C F N S |
| C47_first_dataset_decides_partial | PropertiesGauss.v | C F N S |
| C47_refit_refuted | PropertiesGauss.v | C F N S |
| C48_given_graph_kept_and_used | PropertiesGauss.v | C F N S |
| C48_given_structure_kept | PropertiesGauss.v | C F N S |
| C49_estimate_is_a_simple_graph_partial | PropertiesGauss.v | C F N S |
| C49_units_refuted | PropertiesGauss.v | C F N S |
| C50_negative_variances_refuted | PropertiesGauss.v | C F N S |
| C50_variances_reproduced_partial | PropertiesGauss.v | C F N S |
| C51_dev_objective | PropertiesDev.v | F N S |
| C51_latent_order_irrelevant | PropertiesGauss.v | F S |
| C51_latent_signs_irrelevant | PropertiesGauss.v | F S |
| C51_zero_iff_exact | PropertiesGauss.v | F S |
| C52_fit_succeeds_partial | PropertiesDev.v | F N S |
| C52_sample_refuted | PropertiesDev.v | F N S |
| C53_lse_refuted | PropertiesDev.v | F N S |
| C53_lse_reports_nonnegative_optimum_partial | PropertiesDev.v | F N S |
| C53_mle_reports_the_optimum_partial | PropertiesDev.v | F N S |
| C54_training_mode_partial | PropertiesNcfa.v | C F N S |
| C54_training_mode_refuted | PropertiesNcfa.v | C F N S |
| C55_batches_determined | PropertiesNcfa.v | - |
| C55_empty_split | PropertiesNcfa.v | C F N S |
| C55_history_lengths | PropertiesNcfa.v | C F N S |
| C55_number_of_batches | PropertiesNcfa.v | - |
| C55_training_run | PropertiesNcfa.v | C F N S |
| C56_kl | PropertiesLoss.v | C F N S |
| C56_training_loss | PropertiesLoss.v | F N S |
| C56_validation_loss | PropertiesLoss.v | C F N S |
| C57_blocks_do_not_mix | PropertiesVae.v | F N S |
| C57_output_from_own_block | PropertiesVae.v | F N S |
| C58_all_trainable_partial | PropertiesVae.v | F N S |
| C58_all_trainable_refuted | PropertiesVae.v | C F N S |
| C59_weights_partial | PropertiesVae.v | F N S |
| C59_weights_refuted | PropertiesVae.v | C F N S |
| C60_log_location_partial | PropertiesNcfa.v | - |
| C60_log_location_refuted | PropertiesNcfa.v | - |
| C61_crash_consistency_partial | PropertiesNcfa.v | - |
| C61_crash_consistency_refuted | PropertiesNcfa.v | - |
| C62_dag | PropertiesDag.v | - |
| C63_child_before_latent | PropertiesDag.v | - |
| C63_topological_partial | PropertiesDag.v | - |
| C63_topological_refuted | PropertiesDag.v | - |
| C64_heuristic_exact_iff_one_pure_child | PropertiesHeuristic.v | - |
| C65_empty_matrix_diverges | PropertiesEcc.v | - |
| C65_generator_without_measurements_never_returns | PropertiesSample.v | - |
| C66_reconstruction_never_produces_the_answer | PropertiesEcc.v | - |
| C67_zero_sfd_iff_same_parent_counts | PropertiesEvaluate.v | - |
| C68_integer_predictions_refuted | PropertiesEvaluate.v | - |
| C68_measures_rounded_weights_partial | PropertiesEvaluate.v | - |
| C68_whole_weights_partial | PropertiesEvaluate.v | - |
| C69_impossible_sizes_raise | PropertiesEvaluate.v | - |
| C70_dcov_at_most_half | PropertiesIndep.v | - |
| C71_dcov_isolates_constants | PropertiesIndep.v | - |
| C72_criterion | PropertiesGauss.v | C F N S |
| C72_large_units_all_correlated | PropertiesGauss.v | C F N S |
| C72_small_units_empty_graph | PropertiesGauss.v | C F N S |
| C73_first_fit_outcome | PropertiesGauss.v | C F N S |
| C74_measurement_depends_on_its_parents | PropertiesGauss.v | F S |
| C74_sample_after_fit | PropertiesGauss.v | C F N S |
| C75_lse_overstates_the_optimum | PropertiesDev.v | F N S |
| C75_lse_report_difference | PropertiesDev.v | F N S |
| C76_random_split | PropertiesNcfa.v | F N S |
| C77_explicit_split_raw_partial | PropertiesNcfa.v | F N S |
| C77_standardised_partial | PropertiesNcfa.v | F N S |
| C77_standardised_refuted | PropertiesNcfa.v | F N S |
| C78_scale_partial | PropertiesNcfa.v | F N S |
| C78_shift_refuted | PropertiesNcfa.v | C F N S |
| C78_unit_invariance_partial | PropertiesNcfa.v | F N S |
| C79_best_variance_of_elbo_partial | PropertiesLoss.v | C F N S |
| C79_best_variance_partial | PropertiesLoss.v | F N S |
| C79_best_variances_of_elbo_partial | PropertiesLoss.v | C F N S |
| C79_best_variances_partial | PropertiesLoss.v | C F N S |
| C79_negative_elbo_refuted | PropertiesLoss.v | C F N S |
| C80_noise_in_training_mode_only | PropertiesVae.v | C F N S |
| C81_memory_independent_iff | PropertiesDag.v | F N S |
| C81_memory_refuted | PropertiesDag.v | F N S |
| C81_sample_equations | PropertiesDag.v | F N S |
| C82_boolean_structure_refuted | PropertiesDag.v | F S |
| C82_integer_structure_refuted | PropertiesDag.v | F N S |
| C82_random_B_partial | PropertiesDag.v | F S |
| C83_equation | PropertiesDag.v | F N S |
| C83_generate_dataset | PropertiesDag.v | C F N S |
| C84_expected_dependences | PropertiesDag.v | - |
| C84_match_rate | PropertiesDag.v | F S |
| C85_grid_loop_finds_first_minimum_partial | PropertiesGrid.v | F S |
| C85_grid_search_refuted | PropertiesGrid.v | F N S |
| C86_folds_partition_the_data | PropertiesGrid.v | - |
| C87_cross_validation_reports | PropertiesGrid.v | F N S |
| C88_examples_are_minimal | PropertiesCover.v | - |
| C88_more_latents_is_necessary | PropertiesCover.v | - |
| C89_examples_found | PropertiesCover.v | - |
| C89_generalizes_one_pure_child | PropertiesCover.v | - |
| C89_search_recovers_private_siblings | PropertiesCover.v | - |
| C90_rules_1_and_2_are_optimal | PropertiesCover.v | - |
| C91_quarter_square_latents_suffice_partial | PropertiesCover.v | - |
| C91_small_refuted | PropertiesCover.v | - |
| C92_one_more_suffices_partial | PropertiesCover.v | - |
| C92_printed_bound_partial | PropertiesCover.v | - |
| C92_printed_bound_refuted | PropertiesCover.v | - |
| C92_printed_values | PropertiesCover.v | - |
| C93_one_private_pair_refuted | PropertiesCover.v | - |
| C94_attributes_consistent | PropertiesReduce.v | - |
| C95_reconstruct_exact | PropertiesReduce.v | - |
| C95_reconstruct_no_cover_raises | PropertiesReduce.v | - |
| C95_reconstruct_without_deletions | PropertiesReduce.v | - |
| C96_deletions_undone_partial | PropertiesReduce.v | - |
| C96_deletions_undone_refuted | PropertiesReduce.v | - |
| C96_rounds_before_cover | PropertiesReduce.v | - |
| C97_reset_fresh_refuted | PropertiesReduce.v | - |
| C97_reset_restores_partial | PropertiesReduce.v | - |
| C98_counts | PropertiesVerify.v | - |
| C98_counts_meaning | PropertiesVerify.v | - |
| C98_match_rate_partial | PropertiesVerify.v | F S |
| C98_metrics_below_one | PropertiesVerify.v | F S |
| C98_metrics_close | PropertiesVerify.v | F S |
| C98_wrong_columns_refuted | PropertiesVerify.v | F S |
| C99_kernel_entries | PropertiesKernel.v | C F N S |
| C99_kernel_positive_definite | PropertiesKernel.v | F N S |
| C99_kernel_positive_semidefinite | PropertiesKernel.v | F N S |
| C99_kernel_translation | PropertiesKernel.v | F N S |
| C100_default_is_shared | PropertiesRng.v | C F N S |
| C100_own_generator_partial | PropertiesRng.v | C F N S |
| C100_shared_generator_refuted | PropertiesRng.v | C F N S |
| C100_two_draws_per_sample | PropertiesRng.v | C F N S |
| C101_fit_matches_sample | PropertiesMoment.v | C F N S |
| C101_sample_moments | PropertiesMoment.v | F S |
| C102_batch_size_refuted | PropertiesRecon.v | F N S |
| C102_unweighted_error | PropertiesRecon.v | F N S |
| C102_weighted_error_refuted | PropertiesRecon.v | F N S |
| C103_every_graph_can_be_drawn | PropertiesReach.v | - |
| C103_every_parameter_can_be_drawn | PropertiesReach.v | - |
| C103_every_structure_can_be_drawn | PropertiesReach.v | - |
| C104_draws_do_not_depend_on_outcomes | PropertiesReach.v | - |
| C104_draws_of_a_graph | PropertiesReach.v | - |
| C104_draws_of_a_structure | PropertiesReach.v | - |
| C104_refused_without_drawing | PropertiesReach.v | - |
| C105_dcov_fast | PropertiesXicor.v | - |
| C105_given_p_values | PropertiesXicor.v | - |
| C105_pairwise_tests | PropertiesXicor.v | - |
| C106_sizes | PropertiesXicor.v | - |
| C106_tie_free_coefficient | PropertiesXicor.v | - |
| C106_tie_free_p_values | PropertiesXicor.v | - |
| C106_tie_free_range | PropertiesXicor.v | - |
| C106_ties_is_conservative | PropertiesXicor.v | - |
| C107_bounds_are_sharp | PropertiesNet.v | C F N S |
| C107_encoder_rectifies | PropertiesNet.v | F S |
| C107_far_data_are_not_reconstructed | PropertiesNet.v | F N S |
| C107_held_layers_determine_the_network | PropertiesNet.v | F N S |
| C107_outputs_are_bounded | PropertiesNet.v | F N S |
| C107_training_and_evaluation_agree_without_noise | PropertiesNet.v | F N S |
| C108_dev_sample_with_attributes_set_by_hand | PropertiesErrors.v | S |
| C108_empty_dataset_and_batch_size_zero | PropertiesErrors.v | F N S |
| C108_explicit_split | PropertiesErrors.v | F N S |
| C108_sample_before_fit | PropertiesErrors.v | - |
| C108_single_measurement | PropertiesErrors.v | C F N S |
| C108_unknown_method | PropertiesErrors.v | F N S |
| C108_wrong_width | PropertiesErrors.v | C F N S |
| C109_shape_partial | PropertiesNeural.v | C F N S |
| C109_structure_refuted | PropertiesNeural.v | F N S |
| C110_seed_partial | PropertiesNeural.v | C F N S |
| C110_seed_refuted | PropertiesNeural.v | C F N S |
| C111_losses_are_positive | PropertiesNeural.v | C F N S |
| C112_generators | PropertiesNeural.v | C F N S |
| C112_refused_fits | PropertiesNeural.v | F N S |
| C113_exact_recovery_partial | PropertiesIdent.v | C F N S |
| C113_identified_iff | PropertiesIdentIff.v | C F N S |
| C113_three_children_visible | PropertiesIdentIff.v | F S |
| C113_two_children_refuted | PropertiesIdent.v | F N S |
| C114_never_optimal_refuted | PropertiesMle.v | C F N S |
| C114_positive_variances_partial | PropertiesMle.v | C F N S |
| C114_unbounded_refuted | PropertiesMle.v | C F N S |
| C115_optimal_variances_lse_partial | PropertiesMle.v | F N S |
| C115_optimal_variances_mle_partial | PropertiesMle.v | C F N S |
| C115_range_partial | PropertiesMle.v | F S |
| C115_variances_refuted | PropertiesMle.v | C F N S |
| C116_boolean_partial | PropertiesDtype.v | C F N S |
| C116_examples_refuted | PropertiesDtype.v | C F N S |
| C116_float_refused | PropertiesDtype.v | C F N S |
| C116_mcm_structure_ignored_refuted | PropertiesDtype.v | - |
| C116_shared_child_refuted | PropertiesDtype.v | C F N S |
| C116_single_edge_refuted | PropertiesDtype.v | - |
| C116_single_latent_refuted | PropertiesDtype.v | C F N S |
| C116_structure_ignored_refuted | PropertiesDtype.v | C F N S |
| C116_two_clusters_refuted | PropertiesDtype.v | C F N S |
| C117_complete_partial | PropertiesFs.v | - |
| C117_isolated_partial | PropertiesFs.v | - |
| C117_killed_second_fit | PropertiesFs.v | - |
| C117_other_files | PropertiesFs.v | - |
| C117_same_directory_mixed | PropertiesFs.v | - |
| C117_same_directory_refuted | PropertiesFs.v | - |
| C117_torn_network | PropertiesFs.v | - |
| C118_append_only | PropertiesFs.v | - |
| C118_log_is_an_interleaving | PropertiesFs.v | - |
| C119_again | PropertiesFs.v | - |
| C119_constructor | PropertiesFs.v | - |
| C119_creates_directory_refuted | PropertiesFs.v | - |
| C119_empty_path | PropertiesFs.v | - |
| C119_then_fit | PropertiesFs.v | - |
| C120_estimate_UDG | PropertiesPool.v | - |
| C120_fair_schedules_end_partial | PropertiesPool.v | - |
| C120_killed_process_hangs_refuted | PropertiesPool.v | - |
| C120_same_as_sequential | PropertiesPool.v | - |
| C120_schedule_independent | PropertiesPool.v | - |
| C121_cancelled_refuted | PropertiesConsist.v | C F N S |
| C121_consistent | PropertiesConsist.v | C F N S |
| C121_data_exist | PropertiesConsist.v | F N S |
| C121_parameters | PropertiesConsist.v | C F N S |
| C121_structure | PropertiesConsist.v | C F N S |
| C122_caller_arrays_unchanged | PropertiesHeap.v | - |
| C122_edgeless_result_is_the_argument_refuted | PropertiesHeap.v | - |
| C122_result_is_new_partial | PropertiesHeap.v | - |
| C122_sharing_is_harmless | PropertiesHeap.v | - |
| C123_aux_of_current_array | PropertiesUdgHeap.v | - |
| C123_copy_partial | PropertiesUdgHeap.v | - |
| C123_edge_count_partial | PropertiesUdgHeap.v | - |
| C123_edge_count_refuted | PropertiesUdgHeap.v | - |
| C123_edits_are_shared | PropertiesUdgHeap.v | - |
| C123_failed_aux_refuted | PropertiesUdgHeap.v | - |
| C123_new_edge_count_partial | PropertiesUdgHeap.v | - |
| C123_stale_copy_refuted | PropertiesUdgHeap.v | - |
| C124_bool_and_int_exact_partial | PropertiesEvalInt.v | - |
| C124_exact_when_countable_partial | PropertiesEvalInt.v | - |
| C124_no_self_loops | PropertiesEvalInt.v | - |
| C124_overflow_refuted | PropertiesEvalInt.v | - |
| C124_recovered_edges | PropertiesEvalInt.v | - |
| C125_abs_near_optimal_partial | PropertiesPermFloat.v | C F N S |
| C125_answers | PropertiesPermFloat.v | C F N S |
| C125_exact_match_is_zero | PropertiesPermFloat.v | C F N S |
| C125_finite_distance_iff | PropertiesPermFloat.v | C F N S |
| C125_impossible_sizes_raise | PropertiesPermFloat.v | C F N S |
| C125_near_optimal_partial | PropertiesPermFloat.v | C F N S |
| C125_one_infinite_entry | PropertiesPermFloat.v | C F N S |
| C125_overflow | PropertiesPermFloat.v | C F N S |
| C125_refusals | PropertiesPermFloat.v | C F N S |
| C125_row_order_irrelevant | PropertiesPermFloat.v | C F N S |
| C125_row_order_with_infinities_refuted | PropertiesPermFloat.v | C F N S |
| C125_signs_irrelevant | PropertiesPermFloat.v | C F N S |
| C125_zero_means_close_partial | PropertiesPermFloat.v | C F N S |
| C125_zero_means_match_refuted | PropertiesPermFloat.v | C F N S |
| C126_drawing_determines_structure | PropertiesVis.v | F S |
| C126_heatmap | PropertiesVis.v | F S |
| C126_heatmap_names | PropertiesVis.v | F S |
| C126_missing_names_refuted | PropertiesVis.v | - |
| C126_plots_are_shown | PropertiesVis.v | - |
| C126_show_dag | PropertiesVis.v | F S |
| C126_values_are_drawn | PropertiesVis.v | - |
| C127_deep_dive_exception | PropertiesBench.v | C F N S |
| C127_deep_dive_refuted | PropertiesBench.v | C F N S |
| C127_distance_panels_refuted | PropertiesBench.v | C F N S |
| C127_fit_without_hyperparameters | PropertiesBench.v | F N S |
| C127_headlines | PropertiesBench.v | C F N S |
| C127_hyperparameters | PropertiesBench.v | C F N S |
| C127_no_graphs | PropertiesBench.v | C F N S |
| C127_no_plot_is_overwritten | PropertiesBench.v | C F N S |
| C127_numbering_refuted | PropertiesBench.v | C F N S |
| C127_validation_panel_partial | PropertiesBench.v | C F N S |
| C128_developing_ends | PropertiesScript.v | - |
| C128_developing_refuted | PropertiesScript.v | - |
| C128_imports_from_medil_partial | PropertiesScript.v | - |
| C128_pgm_demo_refuted | PropertiesScript.v | - |
| C129_search_exact_on_diamond_free | PropertiesDiamond.v | - |
| C129_search_exact_on_triangle_free | PropertiesDiamond.v | - |
| C130_examples_found | PropertiesSmall.v | - |
| C130_octahedron | PropertiesSmall.v | - |
| C130_search_exact_up_to_five | PropertiesSmall.v | - |
| C131_bound_is_attained | PropertiesCliqueCount.v | - |
| C131_max_cliques_bound | PropertiesCliqueCount.v | - |
| C131_maximal_cliques_bound | PropertiesCliqueCount.v | - |
| C132_counting_changes_nothing | PropertiesCost.v | - |
| C132_search_cost | PropertiesCost.v | - |
| C133_latents_explain_something_new | PropertiesCost.v | - |
| C133_no_more_latents_than_edges | PropertiesCost.v | - |
| C134_attributes | PropertiesParam.v | - |
| C134_gaussian_text | PropertiesParam.v | - |
| C134_neural_text | PropertiesParam.v | - |
| C134_one_line_is_needed | PropertiesParam.v | - |
| C134_text_determines_values | PropertiesParam.v | - |
| C135_close_to_a_model_partial | PropertiesLsq.v | C F N S |
| C135_exists_iff_partial | PropertiesLsq.v | F N S |
| C135_latents_of_any_size_partial | PropertiesLsq.v | C F N S |
| C135_learned_refuted | PropertiesLsq.v | C F N S |
| C135_no_optimum_refuted | PropertiesLsq.v | C F N S |
| C135_positive_covariances_partial | PropertiesLsq.v | C F N S |
| C136_fit_can_solve_it | PropertiesPen.v | C F N S |
| C136_minimum_exists | PropertiesPen.v | C F N S |
| C136_solutions_bounded | PropertiesPen.v | F S |
| C137_empty_model_is_a_local_minimum | PropertiesPen.v | F S |
| C137_strong_penalty_gives_the_empty_model | PropertiesPen.v | F S |
| C138_every_penalty_refuted | PropertiesPen.v | C F N S |
| C138_invariances_partial | PropertiesPen.v | F S |
| C138_weights_refuted | PropertiesPen.v | F N S |
| C139_final_validation_loss | PropertiesNeural.v | C F N S |
| C140_fit_refuted | PropertiesShape.v | C F N S |
| C140_permutation_distances_refuse_partial | PropertiesShape.v | - |
| C140_permutation_distances_refuted | PropertiesShape.v | F N S |
| C140_same_measurements | PropertiesShape.v | F N S |
| C140_sfd_refuses_partial | PropertiesShape.v | - |
| C140_sfd_single_measurement_refuted | PropertiesShape.v | - |
| C140_validation_refuses_partial | PropertiesShape.v | F N S |
| C140_validation_refuted | PropertiesShape.v | F N S |
| C141_drawn_graph | PropertiesSampleFloat.v | C F N S |
| C141_every_parameter_can_be_drawn_refuted | PropertiesSampleFloat.v | C F N S |
| C141_every_structure_can_be_drawn | PropertiesSampleFloat.v | C F N S |
| C141_generate_forget_recover | PropertiesSampleFloat.v | C F N S |
| C141_generated_structure_is_one_pure_child | PropertiesSampleFloat.v | C F N S |
| C141_nearest_number_of_edges_refuted | PropertiesSampleFloat.v | C F N S |
| C141_parameters_respect_the_structure | PropertiesSampleFloat.v | C F N S |
| C141_same_draws_and_refusals | PropertiesSampleFloat.v | C F N S |
| C142_comparable_refuted | PropertiesNeuralRun.v | C F N S |
| C142_histories | PropertiesNeuralRun.v | C F N S |
| C142_same_rows_frozen_network | PropertiesNeuralRun.v | C F N S |
| C142_same_rows_one_batch | PropertiesNeuralRun.v | C F N S |
| C143_graphs_without_gems_and_wheels | PropertiesNested.v | - |
| C143_one_vertex_more_fails | PropertiesNested.v | - |
| C143_search_exact_without_gems_and_wheels | PropertiesNested.v | - |
| C144_exact_search_partial | PropertiesRelabel.v | - |
| C144_exact_search_refuted | PropertiesRelabel.v | - |
| C144_fit_partial | PropertiesRelabel.v | C F N S |
| C144_heuristic_answers | PropertiesRelabel.v | - |
| C144_heuristic_number_of_latents | PropertiesRelabel.v | - |
| C144_heuristic_partial | PropertiesRelabel.v | - |
| C144_heuristic_refuted | PropertiesRelabel.v | - |
| C145_dev | PropertiesReorder.v | F N S |
| C145_fit | PropertiesReorder.v | C F N S |
| C145_xicor_graph_partial | PropertiesReorder.v | - |
| C145_xicorr_partial | PropertiesReorder.v | - |
| C145_xicorr_refuted | PropertiesReorder.v | - |
| C146_every_sample | PropertiesXiRange.v | - |
| C146_graph | PropertiesXiRange.v | - |
| C146_one_observation | PropertiesXiRange.v | - |
| C146_positive_variance | PropertiesXiRange.v | - |
| C147_frobenius_triangle | PropertiesMetric.v | F N S |
| C147_permutation_symmetric | PropertiesMetric.v | F S |
| C147_permutation_triangle | PropertiesMetric.v | F N S |
| C147_reported_numbers_refuted | PropertiesMetric.v | - |
| C148_booleans_refuted | PropertiesXiData.v | - |
| C148_fixed_width_integers | PropertiesXiData.v | - |
| C149_graph_complete_pairs | PropertiesNanGraph.v | - |
| C149_graph_refuted | PropertiesNanGraph.v | - |
| C149_infinite_values | PropertiesXiData.v | - |
| C149_nan_in_x_refuted | PropertiesXiData.v | - |
| C149_nan_in_y | PropertiesXiData.v | - |
| C150_coefficient_accuracy | PropertiesXiFloat.v | C F N S |
| C150_constant_y_refuted | PropertiesXiFloat.v | C F N S |
| C150_p_value_is_a_number_partial | PropertiesXiFloat.v | C F N S |
| C151_complete_pairs_unaffected | PropertiesNanGraph.v | - |
| C151_one_bad_value_isolates | PropertiesNanGraph.v | - |
| C152_complete_data | PropertiesNanFit.v | F N S |
| C152_complete_fit | PropertiesNanFit.v | F S |
| C152_devmedil_lse_refuses | PropertiesNanFit.v | F N S |
| C152_devmedil_mle_refuted | PropertiesNanFit.v | F S |
| C152_gaussian_parameters_refuted | PropertiesNanFit.v | F S |
| C152_graph | PropertiesNanFit.v | C F N S |
| C153_bound_is_reached | PropertiesSmallSample.v | - |
| C153_no_edges_in_small_samples | PropertiesSmallSample.v | - |
| C153_statistic_bound | PropertiesSmallSample.v | - |
| C154_arithmetic_is_ieee | PropertiesIeee.v | C F N S |
| C154_constant_measurement | PropertiesDcovFloat.v | C F N S |
| C154_decisions | PropertiesDcovFloat.v | C F N S |
| C154_large_units_refuted | PropertiesDcovInf.v | C F N S |
| C154_no_overflow | PropertiesDcovInf.v | C F N S |
| C154_statistic_accuracy | PropertiesDcovFloat.v | C F N S |
| C154_symmetric | PropertiesDcovFloat.v | C F N S |
| C154_units_refuted | PropertiesDcovFloat.v | C F N S |
| C155_constant_partial | PropertiesGaussFloat.v | C F N S |
| C155_constant_refuted | PropertiesGaussFloat.v | C F N S |
| C155_decisions | PropertiesGaussFloat.v | C F N S |
| C155_large_values_refuted | PropertiesGaussInf.v | C F N S |
| C155_no_overflow | PropertiesGaussInf.v | C F N S |
| C155_simple_graph | PropertiesGaussFloat.v | C F N S |
| C156_gpu_refuted | PropertiesDevice.v | C F N S |
| C156_left_on_the_cpu | PropertiesDevice.v | S |
| C156_without_gpu | PropertiesDevice.v | F N S |
| C157_logged_number_refuted | PropertiesDevice.v | - |
| C158_conversion_is_ieee | PropertiesIeee.v | C F N S |
| C158_explicit_split_rounded | PropertiesFloat32.v | C F N S |
| C158_overflow | PropertiesFloat32.v | C F N S |
| C158_random_split_partial | PropertiesFloat32.v | C F N S |
| C158_timestamps_refuted | PropertiesFloat32.v | C F N S |
| C159_complete_data | PropertiesNcfaNan.v | F N S |
| C159_explicit_split | PropertiesNcfaNan.v | F N S |
| C159_infinite_refused | PropertiesNcfaNan.v | F N S |
| C159_network | PropertiesNcfaNan.v | F N S |
| C159_raises_partial | PropertiesNcfaNan.v | F N S |
| C159_random_split_refuted | PropertiesNcfaNan.v | F N S |
| C159_standardised | PropertiesNcfaNan.v | F N S |
| C159_unused_rows_partial | PropertiesNcfaNan.v | F N S |
| C160_fitted_variances_partial | PropertiesMvn.v | C F N S |
| C160_fitted_variances_refuted | PropertiesMvn.v | C F N S |
| C160_sampled_moments | PropertiesMvn.v | F N S |
| C160_warning | PropertiesMvn.v | F S |
| C161_common_unit | PropertiesUnits.v | C F N S |
| C161_units_iff | PropertiesUnits.v | C F N S |
| C161_units_refuted | PropertiesUnits.v | C F N S |
| C162_unit_is_penalty | PropertiesDevUnits.v | F S |
| C162_units_refuted | PropertiesDevUnits.v | C F N S |
| C162_unpenalised | PropertiesDevUnits.v | F N S |
| C163_best_iff_best_in_groups | PropertiesGroups.v | F S |
| C163_groups_separate | PropertiesGroups.v | C F N S |
| C164_always_iff | PropertiesUnion.v | - |
| C164_combines | PropertiesUnion.v | - |
| C164_one_more_measurement | PropertiesUnion.v | - |
| C164_separates | PropertiesUnion.v | - |
| C165_abs_distance_adds | PropertiesUnionEval.v | - |
| C165_distance_adds_partial | PropertiesUnionEval.v | - |
| C165_distance_adds_refuted | PropertiesUnionEval.v | - |
| C165_distance_at_most_partial | PropertiesUnionEval.v | - |
| C165_sfd_adds | PropertiesUnionEval.v | - |
| C166_dcov_not_connected | PropertiesInSample.v | - |
| C166_dcov_statistic | PropertiesInSample.v | - |
| C166_gauss_not_connected | PropertiesInSample.v | C F N S |
| C166_xicor_refuted | PropertiesInSampleXi.v | - |
| C167_dcov_copies_refuted | PropertiesCopies.v | - |
| C167_gauss_copies | PropertiesCopies.v | C F N S |
| C167_gauss_copies_refuted | PropertiesCopies.v | C F N S |
| C167_xicor_connects | PropertiesCopies.v | - |
| C168_estimated_graph | PropertiesLeaveOut.v | - |
| C168_every_graph_is_left | PropertiesLeaveOut.v | - |
| C168_fewer_found_partial | PropertiesLeaveOut.v | - |
| C168_fewer_latents | PropertiesLeaveOut.v | - |
| C168_fewer_necessary | PropertiesLeaveOut.v | - |
| C168_gauss_graph | PropertiesLeaveOut.v | C F N S |
| C168_lost_answer_refuted | PropertiesLeaveOut.v | - |
| C169_heuristic_always_iff | PropertiesTwins.v | - |
| C169_heuristic_extends | PropertiesTwins.v | - |
| C169_heuristic_shares | PropertiesTwins.v | - |
| C169_minimum_cover | PropertiesTwins.v | - |
| C169_search_shares_partial | PropertiesTwins.v | - |
| C169_xicor_graph | PropertiesTwins.v | - |
| C169_xicor_heuristic | PropertiesTwins.v | - |
| C170_dcov_keeps_connections | PropertiesRepeat.v | - |
| C170_dcov_limit | PropertiesRepeat.v | - |
| C170_distance_covariance_nonneg | PropertiesRepeat.v | - |
| C170_gauss_refuted | PropertiesRepeat.v | C F N S |
| C171_dcov_finds_dependence | PropertiesDependence.v | - |
| C171_zero_iff_independent | PropertiesDependence.v | - |
| C172_cauchy_schwarz | PropertiesDcovMatrix.v | - |
| C172_connection_needs_variation | PropertiesDcovMatrix.v | - |
| C172_covariance_matrix | PropertiesDcovMatrix.v | - |
| C172_nothing_to_find | PropertiesDcovMatrix.v | - |

## Testing the theorems against wrong programs

`seeded/LOG.jsonl` records 236 hand-written and 3171 generated mutants of the model (operators, constants, exceptions, argument order, dropped updates), each built in a scratch copy. For hand-written mutants `theorems_failed` lists the property theorems that no longer prove; for generated ones it names the first statement in the build that no longer proves. 130 entries have no failing theorem. They are of these kinds, judged one by one:

* the edited value is overwritten or never read before it is observable (flags and counters of a fresh node of the search, names of crash-history runs, the default of a lookup that is never out of range, the value of det off the diagonal of a diagonal matrix);
* the edited branch cannot be reached from the public functions (an infinite xicor statistic, a failing union of cliques);
* the edit does not change the function (reversing a list of one element, scaling a zero column by 1 or 2).

Survivors that did show a weak theorem led to new or tightened theorems: C05_empty_graph_refuted, C36, C51, C82, C83, C94-C96, C104-C108; the log names them.
