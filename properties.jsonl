{"id": "C01", "title": "Cached evaluations are transparent", "statement": "Whatever sequence of parameter dictionaries a cached method of a signal or signal collection is called with, and whichever of those calls raise, every call that returns yields exactly the value that a fresh, uncached evaluation at the same parameters would yield, provided the evaluation depends on the parameters only through the names the cache is keyed on.", "quantifier": "all call histories, all parameter dictionaries, all cache limits, all failing calls", "why_tests_cant": "tests replay a handful of short histories; staleness appears only for particular orders of hits, evictions and failures", "anchors": ["enterprise/signals/signal_base.py:cache_call (L1009-1071)"]}
{"id": "C02", "title": "A cached method keeps at most its limit of results", "statement": "If no evaluation raises, then after any history of calls a cached method holds at most `limit` results, they are those of the most recent distinct evaluations, and a repeated call with the last parameters never re-evaluates. If evaluations raise, the number of held results can exceed the limit.", "quantifier": "all call histories and limits >= 1", "why_tests_cant": "a memory bound over unbounded histories cannot be observed by finitely many runs", "anchors": ["enterprise/signals/signal_base.py:cache_call (L1054-1067)"]}
{"id": "C03", "title": "A side-effecting builder cached with limit one leaves the object describing the latest request", "statement": "For a method whose effect is to overwrite the object's own basis, cached with limit one, after any history of successful calls the object's state is that of the parameters of the last call. One raising call in the history is enough to break this.", "quantifier": "all histories of successful and failing calls", "why_tests_cant": "needs the interaction of eviction order with partial state updates in every history", "anchors": ["enterprise/signals/signal_base.py:cache_call (L1058-1062)", "enterprise/signals/gp_signals.py:BasisGP._construct_basis (L96-115)", "enterprise/signals/gp_signals.py:BasisCommonGP._construct_basis (L345-347)"]}
{"id": "C04", "title": "Fixing constants takes effect on later evaluations", "statement": "After set_default_params gives new values to constant parameters, every later evaluation of noise, delay and basis uses the new values, whatever had been evaluated before.", "quantifier": "all interleavings of evaluations and set_default_params calls", "why_tests_cant": "tests set constants once, before evaluating", "anchors": ["enterprise/signals/signal_base.py:Signal.set_default_params (L123-133)", "enterprise/signals/signal_base.py:cache_call (L1030-1040)", "enterprise/signals/white_signals.py:WhiteNoise.get_ndiag (L58-63)"]}
{"id": "C05", "title": "Cached results are not changed by later calls", "statement": "A result handed out for one set of parameters keeps describing those parameters after the same object has been evaluated at other parameters, and a cached method returns for a key the value that belongs to that key.", "quantifier": "all histories of calls with two or more keys", "why_tests_cant": "aliasing is only visible if an old result is inspected after a new evaluation", "anchors": ["enterprise/signals/deterministic_signals.py:PhysicalEphemerisSignal.get_delay (L196-207)", "enterprise/signals/white_signals.py:EcorrKernelNoise._get_ndiag_sparse (L266-271)", "enterprise/signals/signal_base.py:cache_call"]}
{"id": "C06", "title": "Sampled GP coefficients combine with the current basis", "statement": "The delay of a pulsar model is, at every call, the sum of its signals' delays at the parameters passed, also when a GP's basis depends on varying parameters and its coefficients are sampled.", "quantifier": "all pairs of successive parameter dictionaries", "why_tests_cant": "requires two calls that differ in exactly the parameters missing from the cache key", "anchors": ["enterprise/signals/signal_base.py:SignalCollection._set_cache_parameters (L796-815)", "enterprise/signals/signal_base.py:SignalCollection.get_delay (L938-945)", "enterprise/signals/gp_signals.py:BasisGP.get_delay (L140-149)"]}
{"id": "C07", "title": "Memoisation by identity is transparent for unmodified arguments", "statement": "A method memoised on the identity of its last argument returns, after any history of calls, the value of the underlying method on the passed argument, as long as argument objects are not modified between calls; sequences are compared element by element.", "quantifier": "all histories of calls on all heaps", "why_tests_cant": "object identity and mutation interplay over histories", "anchors": ["enterprise/signals/signal_base.py:simplememobyid (L39-62)", "enterprise/signals/signal_base.py:LogLikelihood._block_TNT (L185-194)", "enterprise/signals/gp_signals.py:MarginalizingNmat.MNr (L847-857)"]}
{"id": "C08", "title": "Adding signal models is flattening concatenation", "statement": "`+` on signal classes and collections yields the collection whose signals are those of the left operand followed by those of the right operand, for every bracketing; anything else on the right raises TypeError.", "quantifier": "all finite sums of signal classes and collections, in every bracketing", "why_tests_cant": "there are exponentially many bracketings of unboundedly long sums", "anchors": ["enterprise/signals/signal_base.py:MetaSignal.__add__ (L68-74)", "enterprise/signals/signal_base.py:MetaCollection.__add__ (L82-88)"]}
{"id": "C09", "title": "Arrays of pulsars are built in order", "statement": "Adding pulsar models and arrays yields an array whose pulsars are those of the operands in order, except that adding an array (or a foreign object) to the right of a single pulsar model raises AttributeError instead of prepending the model; indexing by position returns that pulsar, indexing by name returns the first pulsar of that name or raises KeyError.", "quantifier": "all sums of pulsar models and arrays, all keys", "why_tests_cant": "needs every combination of operand kinds and repeated names", "anchors": ["enterprise/signals/signal_base.py:PTA.__add__ (L279-283)", "enterprise/signals/signal_base.py:SignalCollection.__add__ (L792-793)", "enterprise/signals/signal_base.py:PTA.__getitem__ (L323-331)"]}
{"id": "C10", "title": "The parameter list of an array is sorted, complete and duplicate free", "statement": "PTA.params lists every varying parameter of every signal of every pulsar, together with the parameters of its prior, each object exactly once, in ascending order of name; constants never appear.", "quantifier": "all arrays of pulsar models and all nestings of hierarchical priors of depth one", "why_tests_cant": "ranges over all models", "anchors": ["enterprise/signals/signal_base.py:PTA.params (L285-294)", "enterprise/signals/signal_base.py:SignalCollection.params (L825-827)", "enterprise/signals/signal_base.py:Signal.params (L98-101)", "enterprise/signals/parameter.py:Parameter.params (L120-124)"]}
{"id": "C11", "title": "Mapping a vector onto parameters loses and reorders nothing", "statement": "For a vector with exactly one entry per name in param_names, map_params gives every parameter the block of entries standing at the positions of its names, and reading the values back in parameter order reproduces the vector. A vector that is too long is silently truncated; one that is too short raises or silently shortens the last vector parameter.", "quantifier": "all parameter lists with arbitrary sizes and all vectors", "why_tests_cant": "all mixtures of scalar and vector sizes", "anchors": ["enterprise/signals/signal_base.py:PTA.map_params (L675-682)", "enterprise/signals/signal_base.py:PTA.param_names (L300-309)"]}
{"id": "C12", "title": "Flattened parameter names are unique", "statement": "If the parameters of an array have distinct names then param_names has no repetition. This fails when a vector parameter's element name equals another parameter's name; it holds whenever no parameter name is another name followed by an underscore and digits.", "quantifier": "all finite families of parameter names and sizes", "why_tests_cant": "needs all families of strings", "anchors": ["enterprise/signals/signal_base.py:PTA.param_names (L300-309)"]}
{"id": "C13", "title": "The log prior is the sum of the parameters' log densities", "statement": "get_lnprior returns the sum over PTA.params of each parameter's log density at its mapped value, identically for the dictionary and the vector calling style, and is -inf as soon as one parameter is outside its support.", "quantifier": "all parameter lists and all vectors of the right length", "why_tests_cant": "all models", "anchors": ["enterprise/signals/signal_base.py:PTA.get_lnprior (L684-688)", "enterprise/signals/parameter.py:Parameter.get_logpdf (L61-74)"]}
{"id": "C14", "title": "The unit-cube transform samples the joint prior", "statement": "get_hypercube_transform maps a point of the unit cube to the vector whose blocks, in param_names order, are the quantiles of the parameters' priors; with hierarchical priors the quantile of a parameter must be taken at the transformed values of its hyperparameters.", "quantifier": "all parameter lists, including hierarchical ones, and all cube points", "why_tests_cant": "all models and all points", "anchors": ["enterprise/signals/signal_base.py:PTA.get_hypercube_transform (L694-699)", "enterprise/signals/parameter.py:Parameter.get_ppf (L107-114)"]}
{"id": "C15", "title": "Signals are retrievable by name", "statement": "get_signal(name) returns the first signal carrying that name in pulsar and signal order, PTA.signals has exactly the distinct signal names as keys, and an unknown name raises KeyError.", "quantifier": "all arrays of signals with arbitrary (also repeated) names", "why_tests_cant": "all name collisions", "anchors": ["enterprise/signals/signal_base.py:PTA._set_signal_dict (L701-727)"]}
{"id": "C16", "title": "Setting constants touches exactly the named constants", "statement": "set_default_params(d) assigns d[name] to each constant parameter whose name is in d, leaves every other constant and every varying parameter alone, and is idempotent; a constant object shared by several signals is updated once for all.", "quantifier": "all models and all dictionaries", "why_tests_cant": "all models, sharing patterns", "anchors": ["enterprise/signals/signal_base.py:Signal.set_default_params (L123-133)", "enterprise/signals/signal_base.py:PTA.set_default_params (L365-367)"]}
{"id": "C17", "title": "Flag selections partition the TOAs", "statement": "by_backend, by_band, by_frontend, by_telescope, no_selection and cut_half return masks such that every TOA is in exactly one mask, no mask is empty (except possibly the second half in cut_half), and a TOA is in the mask labelled v exactly if its flag is v.", "quantifier": "all arrays of flags / times, of any length", "why_tests_cant": "tests use one pulsar", "anchors": ["enterprise/signals/selections.py:by_backend (L130)", "enterprise/signals/selections.py:by_band (L100)", "enterprise/signals/selections.py:by_frontend (L124)", "enterprise/signals/selections.py:by_telescope (L144)", "enterprise/signals/selections.py:no_selection (L158)", "enterprise/signals/selections.py:cut_half (L94)"]}
{"id": "C18", "title": "Filtered flag selections are disjoint and select exactly the matching TOAs", "statement": "nanograv_backends and custom_backends return pairwise disjoint masks whose union is exactly the set of TOAs whose flag contains one of the substrings; custom_backends(None) equals by_backend. custom_backends_dict over several flags is not disjoint.", "quantifier": "all flag arrays and substring lists", "why_tests_cant": "all strings", "anchors": ["enterprise/signals/selections.py:nanograv_backends (L136)", "enterprise/signals/selections.py:custom_backends (L163)", "enterprise/signals/selections.py:custom_backends_dict (L182)"]}
{"id": "C19", "title": "Frequency bands are half open and the default bands cover (0, 10 GHz)", "statement": "by_freq_band returns exactly the non-empty bands, a TOA belongs to band [lo,hi) iff lo <= f < hi; the default bands are disjoint and contain every TOA with 0 <= f < 10000 MHz.", "quantifier": "all frequency arrays and band dictionaries", "why_tests_cant": "band edges over the reals", "anchors": ["enterprise/signals/selections.py:by_freq_band (L106-121)"]}
{"id": "C20", "title": "Selected functions receive each pulsar attribute under its own name", "statement": "When a function is called through the pulsar-binding wrapper, every argument not supplied by the caller receives the pulsar attribute of the same name. This holds if the missing arguments form a block right after the positional ones that the pulsar provides in full; a gap shifts later attributes to wrong arguments.", "quantifier": "all signatures, positional/keyword argument splits and attribute sets", "why_tests_cant": "all signatures", "anchors": ["enterprise/signals/selections.py:selection_func (L20-51)"]}
{"id": "C21", "title": "Masked attributes are restricted to the selected TOAs", "statement": "Under a mask, an attribute that is a per-TOA array is restricted to the selected TOAs and any other attribute is passed unchanged. It fails for a non-TOA array whose length happens to equal the number of TOAs.", "quantifier": "all attributes, masks and array lengths", "why_tests_cant": "coincidence of lengths", "anchors": ["enterprise/signals/selections.py:selection_func (L38-44)"]}
{"id": "C22", "title": "Parameters of different selections get different names", "statement": "Selection.__call__ creates one parameter per mask, names it pulsar_key_parname (pulsar_parname for the empty key), different keys giving different names, and associates it with the mask of its key.", "quantifier": "all key sets and parameter names", "why_tests_cant": "all strings", "anchors": ["enterprise/signals/selections.py:Selection.__call__ (L73-86)"]}
{"id": "C23", "title": "Each TOA's white variance comes from its own selection", "statement": "For a selection that partitions the TOAs, get_ndiag at TOA i is the variance function of the (unique) selection containing i evaluated at i; for overlapping selections it is the sum. MeasurementNoise gives efac^2 (toaerr^2 + 10^(2 log10_t2equad)), TNEquadNoise gives 10^(2 log10_tnequad), and both are positive for positive errors and nonzero efac.", "quantifier": "all masks, errors and parameter values", "why_tests_cant": "all partitions", "anchors": ["enterprise/signals/white_signals.py:WhiteNoise.get_ndiag (L58-63)", "enterprise/signals/white_signals.py:efac_ndiag, combined_ndiag, tnequad_ndiag (L68-102)"]}
{"id": "C24", "title": "Epoch quantisation partitions the TOAs into short epochs", "statement": "create_quantization_matrix assigns every TOA to exactly one bucket before the size filter; TOAs of one bucket lie within dt of its first TOA, consecutive buckets start at least dt apart, and the returned 0/1 matrix has one column per bucket with at least nmin TOAs, its columns having disjoint supports. An empty selection raises IndexError.", "quantifier": "all TOA arrays, sorted or not, all dt > 0 and nmin", "why_tests_cant": "all arrays of reals", "anchors": ["enterprise/signals/utils.py:create_quantization_matrix (L759-783)"]}
{"id": "C25", "title": "Epoch quantisation does not depend on TOA order", "statement": "Permuting the TOAs permutes the rows of the quantisation matrix (for distinct TOAs), so the set of epochs is a function of the set of TOAs.", "quantifier": "all permutations of all TOA arrays", "why_tests_cant": "n! orders", "anchors": ["enterprise/signals/utils.py:create_quantization_matrix (L759-783)"]}
{"id": "C26", "title": "Index lists recovered from a quantisation matrix are the epochs", "statement": "quant2ind returns for each column the increasing list of rows with a nonzero entry; as_slice returns a slice exactly when these rows are contiguous, and indices_from_slice of either form gives the same indices.", "quantifier": "all 0/1 matrices without empty columns", "why_tests_cant": "all matrices", "anchors": ["enterprise/signals/utils.py:quant2ind (L786-805)", "enterprise/signals/utils.py:indices_from_slice (L808-814)"]}
{"id": "C27", "title": "ECORR epochs of different selections never overlap", "statement": "For a selection with disjoint masks the epoch index lists handed to the ECORR noise matrix are pairwise disjoint, lie inside their selection, and carry the ECORR value of that selection.", "quantifier": "all disjoint mask families and TOA arrays", "why_tests_cant": "all partitions", "anchors": ["enterprise/signals/white_signals.py:EcorrKernelNoise.__init__ (L204-233)", "enterprise/signals/white_signals.py:EcorrKernelNoise._get_jvecs (L289-294)"]}
{"id": "C28", "title": "Diagonal white noise is solved exactly", "statement": "For diagonal noise, solve returns N^-1 x, L^T N^-1 x and log det N for all vectors and matrices, when all variances are positive.", "quantifier": "all positive diagonals, all right and left arrays", "why_tests_cant": "all sizes and values (in exact arithmetic)", "anchors": ["enterprise/signals/signal_base.py:ndarray_alt.solve (L1124-1133)"]}
{"id": "C29", "title": "Sherman-Morrison ECORR solves the epoch-correlated covariance exactly", "statement": "For disjoint epochs, solve of the Sherman-Morrison noise object returns N^-1 x, y^T N^-1 x, Z^T N^-1 X and log det N where N is the diagonal noise plus j_b on every pair of TOAs of an epoch b with more than one TOA. For overlapping epochs it does not.", "quantifier": "all epoch families, all noise values, all arrays", "why_tests_cant": "all sizes and values", "anchors": ["enterprise/signals/signal_base.py:ShermanMorrison (L1235-1334)"]}
{"id": "C30", "title": "The block ECORR implementation solves the same covariance", "statement": "For disjoint epochs BlockMatrix.solve returns N^-1 x, Z^T N^-1 X and log det N of the block covariance plus diagonal noise, and agrees with the Sherman-Morrison implementation wherever both return; it raises when there is no epoch at all.", "quantifier": "all epoch families, noise values and arrays", "why_tests_cant": "all sizes and values", "anchors": ["enterprise/signals/signal_base.py:BlockMatrix (L1136-1232)", "enterprise/signals/white_signals.py:EcorrKernelNoise._get_ndiag_block (L281-287)"]}
{"id": "C31", "title": "Adding noise components adds covariances", "statement": "The noise covariance of a pulsar model is the sum of its white signals' covariances in every order of the signals, whichever mixture of diagonal, ECORR and marginalised timing-model noise is present, or a TypeError/ValueError is raised.", "quantifier": "all sequences of white noise components", "why_tests_cant": "all orders and mixtures", "anchors": ["enterprise/signals/signal_base.py:SignalCollection.get_ndiag (L933-936)", "enterprise/signals/signal_base.py:ShermanMorrison.__add__/__radd__ (L1244-1253)", "enterprise/signals/signal_base.py:BlockMatrix.__add__/__radd__ (L1149-1158)", "enterprise/signals/gp_signals.py:MarginalizingNmat.__add__ (L827-838)"]}
{"id": "C32", "title": "Sharing basis columns does not change the model covariance", "statement": "The combined basis T and prior Phi of a pulsar model satisfy T Phi T^T = sum over signals of F_s Phi_s F_s^T, provided no signal has repeated columns, hashes do not collide, and no signal with a parameter-dependent basis comes before a column-sharing one; without these provisos it fails.", "quantifier": "all lists of signals with arbitrary bases, diagonal or dense priors", "why_tests_cant": "all bases and all sharing patterns", "anchors": ["enterprise/signals/signal_base.py:SignalCollection._combine_basis_columns (L877-923)", "enterprise/signals/signal_base.py:SignalCollection.get_basis (L950-961)", "enterprise/signals/signal_base.py:SignalCollection.get_phi (L967-977)", "enterprise/signals/utils.py:KernelMatrix.add (L255-270)"]}
{"id": "C33", "title": "Combined column indices are a valid layout", "statement": "The column maps of a combined basis use exactly the columns 0..ncol-1, each signal with a fixed, repetition-free basis occupies distinct columns, and columns are shared between two signals only if their contents are equal and the later one allows combining.", "quantifier": "all lists of signals", "why_tests_cant": "all sharing patterns", "anchors": ["enterprise/signals/signal_base.py:SignalCollection._combine_basis_columns (L877-923)"]}
{"id": "C34", "title": "The single-pulsar likelihood is the marginal Gaussian density", "statement": "For a pulsar with positive white variances and positive definite Phi, the log likelihood returned (without the constant) equals -1/2 (r^T C^-1 r + log det C) with C = N + T Phi T^T and r the residuals minus the delay.", "quantifier": "all sizes, residuals, bases, noise values and positive definite priors", "why_tests_cant": "equality of two algebraic expressions over all inputs", "anchors": ["enterprise/signals/signal_base.py:LogLikelihood.__call__ (L196-264)", "enterprise/signals/signal_base.py:SignalCollection.get_TNr/get_TNT/get_rNr_logdet (L979-1000)"]}
{"id": "C35", "title": "The array likelihood with correlated signals is the joint marginal Gaussian density", "statement": "With common signals the returned log likelihood equals -1/2 (r^T C^-1 r + log det C) for the stacked residuals and C = blockdiag(N_a) + T Phi T^T with the full cross-pulsar Phi; without common signals it is the sum of the single-pulsar values.", "quantifier": "all numbers of pulsars, sizes and values", "why_tests_cant": "all inputs", "anchors": ["enterprise/signals/signal_base.py:LogLikelihood.__call__ (L196-264)"]}
{"id": "C36", "title": "Likelihood evaluation never fails for pulsars without Gaussian processes", "statement": "A pulsar whose model has no basis contributes only its white-noise term. True without common signals; with common signals the evaluation raises.", "quantifier": "all arrays of pulsars with and without bases", "why_tests_cant": "all mixtures", "anchors": ["enterprise/signals/signal_base.py:LogLikelihood.__call__ (L219-220, L247-249)", "enterprise/signals/signal_base.py:PTA.get_phi (L631-636)"]}
{"id": "C37", "title": "A non positive definite system gives -inf", "statement": "Whenever the Cholesky factorisation of Sigma fails the likelihood returned is -inf, never an exception or a number.", "quantifier": "all parameter values", "why_tests_cant": "failure points", "anchors": ["enterprise/signals/signal_base.py:LogLikelihood.__call__ (L223-243, L254-258)"]}
{"id": "C38", "title": "Pulsars occupy consecutive disjoint slices of the big prior matrix", "statement": "The slices of the pulsars in Phi are consecutive, disjoint and cover all rows; pulsars without basis get an empty slice.", "quantifier": "all lists of pulsar priors", "why_tests_cant": "all arrays", "anchors": ["enterprise/signals/signal_base.py:PTA._get_slices (L407-415)"]}
{"id": "C39", "title": "The big prior matrix is symmetric with the documented entries", "statement": "Entry (a,i),(b,j) of PTA.get_phi is the pulsar's own prior if a=b, and otherwise the sum over common signals of spectrum times overlap reduction at matching columns; it is symmetric whenever the priors and the ORF are.", "quantifier": "all arrays and common signals with repetition-free columns", "why_tests_cant": "all arrays", "anchors": ["enterprise/signals/signal_base.py:PTA.get_phi (L626-673)", "enterprise/signals/gp_signals.py:BasisCommonGP.get_phicross (L404-409)"]}
{"id": "C40", "title": "Clique inversion returns the inverse of the big prior matrix", "statement": "get_phiinv(method='cliques') returns the inverse and log determinant of get_phi. True whenever the recorded cliques separate the matrix; false when two dense single-pulsar priors larger than the common basis are coupled, because cliques are never merged.", "quantifier": "all arrays with arbitrary mixtures of dense and diagonal priors and common signals", "why_tests_cant": "all sparsity patterns", "anchors": ["enterprise/signals/signal_base.py:PTA.get_phiinv_byfreq_cliques (L518-556)", "enterprise/signals/signal_base.py:PTA._setcliques (L569-605)", "enterprise/signals/utils.py:KernelMatrix._setcliques (L243-253)"]}
{"id": "C41", "title": "Partition inversion returns the inverse of the big prior matrix", "statement": "get_phiinv(method='partition') returns the inverse and log determinant of get_phi when there is one common signal class present in all pulsars; with two classes it does not.", "quantifier": "all arrays", "why_tests_cant": "all arrays", "anchors": ["enterprise/signals/signal_base.py:PTA.get_phiinv_byfreq_partition (L441-516)"]}
{"id": "C42", "title": "All inversion methods agree", "statement": "The three get_phiinv methods return the same matrix and log determinant for every single-class array with diagonal priors; any other method name raises NotImplementedError.", "quantifier": "all arrays", "why_tests_cant": "all arrays", "anchors": ["enterprise/signals/signal_base.py:PTA.get_phiinv (L417-439)"]}
{"id": "C43", "title": "Common signals are those shared by at least two pulsars", "statement": "The correlated branch of the likelihood is taken exactly if some common signal class without sampled coefficients occurs in two or more pulsars (or twice in one) that have a basis.", "quantifier": "all arrays", "why_tests_cant": "all arrays", "anchors": ["enterprise/signals/signal_base.py:PTA._commonsignals (L383-403)"]}
{"id": "C44", "title": "The marginalising timing model removes the timing-model subspace", "statement": "With the marginalising timing model the quadratic forms returned by solve are those of N^-1 - N^-1 M (M^T N^-1 M)^-1 M^T N^-1: they are unchanged by adding any timing-model offset M x to the residuals and vanish on the column space of M.", "quantifier": "all design matrices of full rank, noise and residuals", "why_tests_cant": "all x", "anchors": ["enterprise/signals/gp_signals.py:MarginalizingNmat.solve (L860-887)"]}
{"id": "C45", "title": "Marginalising agrees with an explicit wide-prior timing model", "statement": "The likelihood with the marginalising timing model equals the limit of likelihoods with an explicit timing model of prior variance lambda, after removing the constant; the log determinant term is exactly log det N + log det(M^T N^-1 M) + m log 1e40.", "quantifier": "all models; limit over lambda", "why_tests_cant": "a limit statement", "anchors": ["enterprise/signals/gp_signals.py:MarginalizingNmat (L822-887)", "enterprise/signals/utils.py:tm_prior (L925-927)"]}
{"id": "C46", "title": "MarginalizingNmat refuses ill-formed combinations", "statement": "Adding two marginalising matrices raises ValueError, adding 0 is the identity, adding something that is neither noise nor 0 raises TypeError, and solve raises ValueError exactly outside its documented argument shapes.", "quantifier": "all operands and argument shapes", "why_tests_cant": "all shapes", "anchors": ["enterprise/signals/gp_signals.py:MarginalizingNmat.__add__ (L827-838)", "enterprise/signals/gp_signals.py:MarginalizingNmat.solve (L860-887)"]}
{"id": "C47", "title": "Wideband DMX bins account for every TOA", "statement": "A wideband timing model is only constructed if every TOA lies in exactly one DMX interval. The implemented test compares totals and can be satisfied by one overlap and one gap.", "quantifier": "all DMX tables and site arrival times", "why_tests_cant": "all interval configurations", "anchors": ["enterprise/signals/gp_signals.py:WidebandTimingModel.__init__ (L613-631)"]}
{"id": "C48", "title": "Wideband DM terms equal the full DM likelihood", "statement": "Replacing the DM measurements of each bin by their weighted mean and variance, plus the extra log term, gives for every value of the DMX parameters the same log density as the product of the individual Gaussian DM measurements.", "quantifier": "all measurements, errors, bins and DMX values", "why_tests_cant": "algebraic identity over all reals", "anchors": ["enterprise/signals/gp_signals.py:WidebandTimingModel.get_phi/get_delay/get_mean_dm/get_mean_dme/get_logsignalprior (L647-757)"]}
{"id": "C49", "title": "Conditional coefficients are the Gaussian posterior mean", "statement": "get_mean_coefficients returns the vector solving (T^T N^-1 T + Phi^-1) b = T^T N^-1 r, which maximises the joint density of data and coefficients.", "quantifier": "all models with positive definite Sigma", "why_tests_cant": "all inputs", "anchors": ["enterprise/signals/utils.py:ConditionalGP._make_conditional (L50-76)", "enterprise/signals/utils.py:get_coefficients (L141-226)"]}
{"id": "C50", "title": "Coefficient draws have the posterior covariance", "statement": "The linear map applied to standard normal variates in coefficient sampling, L, satisfies L L^T = Sigma^-1. The QR fallback does not.", "quantifier": "all Sigma", "why_tests_cant": "all matrices", "anchors": ["enterprise/signals/utils.py:ConditionalGP._sample_conditional (L78-94)", "enterprise/signals/utils.py:get_coefficients (L191-205)"]}
{"id": "C51", "title": "Coefficients are attributed to the right signal", "statement": "Each signal's reported coefficients are the entries of the coefficient vector at that signal's own basis columns. True when no columns are shared; otherwise an IndexError is raised. get_coefficients without correlations misattributes when a common signal precedes a basis signal.", "quantifier": "all lists of signals", "why_tests_cant": "all layouts", "anchors": ["enterprise/signals/utils.py:ConditionalGP._sample_conditional (L96-127)", "enterprise/signals/utils.py:get_coefficients (L207-220)"]}
{"id": "C52", "title": "KernelMatrix accumulates priors at the given indices", "statement": "add and set write a diagonal or dense block exactly at the given distinct indices and nothing else, switching to a dense matrix if needed. With a slice index, a diagonal block and an already dense matrix, they fill the whole block instead of its diagonal.", "quantifier": "all matrices, blocks and index sets", "why_tests_cant": "all inputs", "anchors": ["enterprise/signals/utils.py:KernelMatrix.add/set (L255-286)"]}
{"id": "C53", "title": "The coefficient prior is the Gaussian density of the coefficients", "statement": "The log prior of sampled GP coefficients equals -1/2 (c^T Phi^-1 c + log det(2 pi Phi)) for diagonal and dense Phi, and the coefficient delay is F c; combining them with the coefficient-free likelihood and integrating over c is the marginal likelihood (completing the square).", "quantifier": "all coefficients, priors and bases", "why_tests_cant": "all inputs", "anchors": ["enterprise/signals/gp_signals.py:BasisGP._get_coefficient_logprior (L122-133)", "enterprise/signals/gp_signals.py:BasisGP.get_delay (L140-149)"]}
{"id": "C54", "title": "A selected GP's basis is block structured", "statement": "The basis of a GP with selections has, for each selection, a contiguous block of columns that is that selection's basis on its TOAs and zero elsewhere; blocks are consecutive in sorted key order and the covariance between TOAs of disjoint selections is zero.", "quantifier": "all mask families and basis sizes", "why_tests_cant": "all selections", "anchors": ["enterprise/signals/gp_signals.py:BasisGP._construct_basis (L96-115)", "enterprise/signals/gp_signals.py:BasisGP.get_phi (L174-180)"]}
{"id": "C55", "title": "Correlated GPs use one common time span", "statement": "All pulsars of an array built from one common Fourier GP without explicit Tspan use the same frequencies, those of the span of all pulsars. This fails if a basis is evaluated before all pulsars are instantiated, or if the class is reused for a second array.", "quantifier": "all interleavings of instantiations and evaluations", "why_tests_cant": "history dependence", "anchors": ["enterprise/signals/gp_signals.py:FourierBasisCommonGP (L440-462)"]}
{"id": "C56", "title": "The uniform prior, quantile and sampler describe one distribution", "statement": "The uniform density is nonnegative, integrates to one over [pmin,pmax] and to zero outside, its quantile function is the inverse of its distribution function on [0,1], and its samples are in the support.", "quantifier": "all pmin < pmax, all values", "why_tests_cant": "all reals", "anchors": ["enterprise/signals/parameter.py:UniformPrior, UniformPPF, UniformSampler (L201-217)"]}
{"id": "C57", "title": "The linear-exponential prior, quantile and sampler describe one distribution", "statement": "LinearExp density integrates to one, is the push-forward of the uniform density on [10^pmin,10^pmax] under log10, its quantile inverts its distribution function, and pmin >= pmax raises ValueError in density and sampler.", "quantifier": "all pmin < pmax, all values", "why_tests_cant": "all reals", "anchors": ["enterprise/signals/parameter.py:LinearExpPrior, LinearExpSampler, LinearExpPPF (L368-394)"]}
{"id": "C58", "title": "The truncated normal prior is normalised on its open interval", "statement": "TruncNormal density is nonnegative, zero outside (pmin,pmax), integrates to one, agrees whether or not the normalisation is precomputed; its rejection sampler only returns values in [pmin,pmax].", "quantifier": "all mu, sigma > 0, pmin < pmax; all rejection sequences", "why_tests_cant": "all reals and random streams", "anchors": ["enterprise/signals/parameter.py:TruncNormalPrior, TruncNormalSampler (L299-333)"]}
{"id": "C59", "title": "The normal prior is the Gaussian density in all its calling conventions", "statement": "NormalPrior with a diagonal covariance matrix equals the product of the scalar densities, is symmetric about mu and maximal there, and its log is quadratic.", "quantifier": "all mu, sigma, value", "why_tests_cant": "all reals and dimensions", "anchors": ["enterprise/signals/parameter.py:NormalPrior (L242-251)"]}
{"id": "C60", "title": "Function arguments are resolved with fixed precedence", "statement": "Calling a named Function evaluates the underlying function with each declared keyword bound to: the explicit keyword argument if given, else the entry of `params` under the parameter's full name, else the value of a constant, else the default, else the nested Function's value; positional arguments are passed through.", "quantifier": "all keyword sets, parameter dictionaries and nestings", "why_tests_cant": "all combinations", "anchors": ["enterprise/signals/parameter.py:Function.__call__ (L512-571)", "enterprise/signals/parameter.py:Function.__init__ (L460-510)"]}
{"id": "C61", "title": "Nested functions keep their own keywords apart", "statement": "Composing Functions does not change the meaning of either: a nested function's keyword of the same name as one of the outer function's does not affect the outer one. This is false: nested parameters overwrite outer ones of the same keyword.", "quantifier": "all nestings", "why_tests_cant": "needs coinciding keywords", "anchors": ["enterprise/signals/parameter.py:Function.__init__ (L499-508)"]}
{"id": "C62", "title": "Parameter names follow the template and are stable", "statement": "A parameter declared under keyword kw in a function instantiated as `name` is called name_fname_kw with empty parts dropped; instantiated parameters keep their own name; distinct keywords give distinct names.", "quantifier": "all names", "why_tests_cant": "all strings", "anchors": ["enterprise/signals/parameter.py:Function.__init__ (L489-510)", "enterprise/signals/parameter.py:Parameter.__call__ (L141-142)"]}
{"id": "C63", "title": "Sampling keeps hyperparameters consistent", "statement": "sample(parlist) returns one value per parameter including hyperparameters, each parameter being drawn given the returned values of its hyperparameters. This is false when two parameters share a hyperparameter, which is drawn again.", "quantifier": "all parameter lists with shared hyperparameters and all random streams", "why_tests_cant": "all dependency graphs and streams", "anchors": ["enterprise/signals/parameter.py:sample, _sample (L14-36)"]}
{"id": "C64", "title": "A decorated function called with complete numeric arguments is the plain function", "statement": "A function made composable by the decorator returns the plain result if all positional arguments are supplied and no keyword is a Parameter or Function, and otherwise returns a Function.", "quantifier": "all argument lists", "why_tests_cant": "all calls", "anchors": ["enterprise/signals/parameter.py:function (L605-638)", "enterprise/signals/parameter.py:get_funcargs (L588-602)"]}
{"id": "C65", "title": "Fourier bases with the same span nest", "statement": "With fixed Tspan and default spacing the first 2m columns and frequencies of an n-mode basis are the m-mode basis for m <= n, the shape is N x 2n, frequencies come in equal sin/cos pairs i/T.", "quantifier": "all TOAs, spans and mode counts", "why_tests_cant": "all sizes", "anchors": ["enterprise/signals/gp_bases.py:createfourierdesignmatrix_red (L26-90)"]}
{"id": "C66", "title": "A Fourier GP is stationary", "statement": "If sine and cosine of each frequency share a variance, the covariance F Phi F^T between times t and t' is sum_i phi_i cos(2 pi f_i (t-t')), independent of a common time shift and of phase shifts.", "quantifier": "all times, frequencies, variances and phases", "why_tests_cant": "all reals", "anchors": ["enterprise/signals/gp_bases.py:createfourierdesignmatrix_red (L83-88)", "enterprise/signals/gp_priors.py:powerlaw (L15-20)"]}
{"id": "C67", "title": "Chromatic bases are row scalings of the achromatic one", "statement": "DM, chromatic, temponest-normalised, envelope and general bases equal the plain Fourier basis with row i multiplied by the documented function of radio frequency or time; the chromatic basis with index 2 equals the DM basis with reference 1400 MHz.", "quantifier": "all TOAs and frequencies", "why_tests_cant": "all inputs", "anchors": ["enterprise/signals/gp_bases.py:createfourierdesignmatrix_dm, _dm_tn, _env, _chromatic, _general (L93-360)"]}
{"id": "C68", "title": "Spectra are positive and of matching length", "statement": "For strictly increasing positive frequency pairs powerlaw, turnover, turnover_knee, broken_powerlaw, free_spectrum and t_process return one positive prior variance per basis column; a repeated frequency makes the prior zero there.", "quantifier": "all frequency lists and hyperparameters", "why_tests_cant": "all reals", "anchors": ["enterprise/signals/gp_priors.py:powerlaw, turnover, free_spectrum, t_process, turnover_knee, broken_powerlaw (L15-140)"]}
{"id": "C69", "title": "Overlap reduction functions are symmetric and bounded", "statement": "hd_orf, dipole_orf, monopole_orf and anis_orf are symmetric in the two positions; hd_orf lies in [-0.2,1] for distinct unit vectors, equals 1 at coincident arguments and tends to 1/2 as they merge.", "quantifier": "all pairs of unit vectors", "why_tests_cant": "all reals", "anchors": ["enterprise/signals/utils.py:hd_orf, dipole_orf, monopole_orf, anis_orf (L845-889)"]}
{"id": "C70", "title": "Monopole and dipole correlation matrices are positive definite", "statement": "For pulsars at distinct positions the monopole and dipole ORF matrices are positive definite; with two pulsars at the same position they are singular.", "quantifier": "all numbers of pulsars and positions", "why_tests_cant": "all sizes", "anchors": ["enterprise/signals/utils.py:dipole_orf, monopole_orf (L856-871)"]}
{"id": "C71", "title": "Linear interpolation basis reproduces linear functions", "statement": "Rows of linear_interp_basis sum to one, entries lie in [0,1], and the basis applied to the node times returns the TOAs.", "quantifier": "all TOA arrays and step sizes", "why_tests_cant": "all reals", "anchors": ["enterprise/signals/utils.py:linear_interp_basis (L817-840)"]}
{"id": "C72", "title": "Timing-model bases span the timing model", "statement": "normed_tm_basis spans the same column space as the design matrix with the excluded columns removed, its nonzero columns having unit norm. So does the basis of TimingModel for every combination of options that is not refused; refused is exactly a singular value decomposition with norms other than the default. A stabilised design matrix has the same columns as the normalised basis or spans the same space. False: the singular vectors of a degenerate design matrix span more than its columns, so that use_svd marginalises over directions that are not in the timing model; columns of zeros are kept by the normalised basis but become nan in the stabilised matrix.", "quantifier": "all design matrices, exclusion lists and options", "why_tests_cant": "all sizes", "anchors": ["enterprise/signals/utils.py:normed_tm_basis, unnormed_tm_basis (L892-914)", "enterprise/signals/utils.py:create_stabletimingdesignmatrix (L312-334)", "enterprise/signals/gp_signals.py:get_timing_model_basis (L219-231)"]}
{"id": "C73", "title": "Antenna patterns satisfy the total-power identity", "statement": "For unit pulsar direction p and GW propagation direction, fplus^2+fcross^2 = ((1 - omhat.p)/2)^2, hence both are bounded by one in modulus, and bwm_delay is zero before the burst, continuous, and linear in strain after it.", "quantifier": "all angles and unit vectors off the singular direction", "why_tests_cant": "all reals", "anchors": ["enterprise/signals/utils.py:create_gw_antenna_pattern (L688-713)", "enterprise/signals/utils.py:bwm_delay (L716-756)"]}
{"id": "C74", "title": "Ecliptic/equatorial conversions are inverse rotations", "statement": "eq2ecl_vec and ecl2eq_vec multiply by the matrix of the constants and its transpose; euler_vec blocks are orthogonal with determinant one; so frame rotations preserve lengths.", "quantifier": "all angles and vectors", "why_tests_cant": "all reals", "anchors": ["enterprise/signals/utils.py:ecl2eq_vec, eq2ecl_vec, euler_vec, ss_framerotate (L944-1017)", "enterprise/constants.py"]}
{"id": "C75", "title": "The ephemeris delay vanishes for zero parameters and is linear in masses", "statement": "physical_ephem_delay is zero when all corrections are zero and, at zero drift, additive and homogeneous in mass and orbital-element corrections.", "quantifier": "all pulsar data and corrections", "why_tests_cant": "all reals", "anchors": ["enterprise/signals/utils.py:physical_ephem_delay (L1102-1162)", "enterprise/signals/utils.py:createfourierdesignmatrix_physicalephem (L1029-1100)"]}
{"id": "C76", "title": "Spherical-harmonic coefficient conversions are inverse", "statement": "clmFromAlm(almFromClm(c)) = c for every c of length (lmax+1)^2, and almFromClm(clmFromAlm(a)) = a for every a with real m=0 entries; a length that is not a square loses the surplus.", "quantifier": "all lmax and coefficient vectors", "why_tests_cant": "all sizes", "anchors": ["enterprise/signals/anis_coefficients.py:almFromClm, clmFromAlm (L116-176)"]}
{"id": "C77", "title": "Sorting is a stable permutation applied to every array", "statement": "After sort_data the public arrays are the stored arrays under one permutation that makes the TOAs ascending and keeps the order of equal TOAs; the inverse permutation undoes it.", "quantifier": "all arrays of any length", "why_tests_cant": "all permutations", "anchors": ["enterprise/pulsar.py:BasePulsar.sort_data (L127-136)", "enterprise/pulsar.py:BasePulsar properties (L186-320)"]}
{"id": "C78", "title": "Filtering by time keeps all per-TOA data aligned", "statement": "After filter_data the public arrays are those of the TOAs within the interval, still aligned with each other, and a second identical filtering changes nothing. This is false: site TOAs, telescopes, sun and pulsar positions are not filtered, and planet positions are filtered in the wrong order for unsorted data.", "quantifier": "all data sets and intervals", "why_tests_cant": "needs unsorted data and optional arrays", "anchors": ["enterprise/pulsar.py:BasePulsar.filter_data (L138-163)"]}
{"id": "C79", "title": "Flags set in time order are read back in time order", "statement": "After set_flags(name, values), flags[name] equals values for every sorted data set, other flags are unchanged.", "quantifier": "all data sets and values", "why_tests_cant": "all permutations", "anchors": ["enterprise/pulsar.py:BasePulsar.set_flags, flags (L246-261)"]}
{"id": "C80", "title": "Backend flags follow the documented precedence", "statement": "backend_flags at a TOA is the first non-empty of group, g, sys, i, f, and fe_be (when both are non-empty), or empty; provided no string is longer than the widest flag.", "quantifier": "all flag dictionaries", "why_tests_cant": "all combinations of present and empty flags", "anchors": ["enterprise/pulsar.py:BasePulsar.backend_flags (L263-288)"]}
{"id": "C81", "title": "Shared-memory pulsars follow the documented lifecycle", "statement": "Over every sequence of deflate, inflate and destroy on any number of copies, inflating before destruction returns the original array contents, nothing is inflated after destruction (an error is raised), and every shared block created is unlinked at most once per copy.", "quantifier": "all sequences of operations across copies", "why_tests_cant": "all interleavings of processes", "anchors": ["enterprise/pulsar.py:Tempo2Pulsar.deflate/inflate/destroy (L636-663)", "enterprise/pulsar_inflate.py:PulsarInflater (L38-69)"]}
{"id": "C82", "title": "A pulsar saved to feather can be loaded back", "statement": "Saving a pulsar and loading the file returns the same arrays, flags and metadata. Saving as implemented always raises, because the metadata list is looked up on the Pulsar factory function; and were it found, planet tensors with more than ten rows could not be read back.", "quantifier": "all pulsars", "why_tests_cant": "all flag names and tensor sizes", "anchors": ["enterprise/pulsar.py:FeatherPulsar.save_feather, read_feather (L690-769)"]}
{"id": "C83", "title": "The observation count bound covers the tim file", "statement": "get_maxobs returns at least the number of TOA lines of a tim file and its includes. False for files mixing INCLUDE with TOA lines; cyclic includes do not terminate.", "quantifier": "all file systems of tim files", "why_tests_cant": "all include graphs", "anchors": ["enterprise/pulsar.py:get_maxobs (L51-68)"]}
{"id": "C84", "title": "Loading a pulsar restores the working directory", "statement": "Whatever happens while loading (success, missing package, unreadable files, timing package errors), the working directory after the call is the one before it.", "quantifier": "all failure points", "why_tests_cant": "crash points", "anchors": ["enterprise/pulsar.py:Pulsar (L772-859)"]}
{"id": "C85", "title": "Pulsar distances fall back consistently", "statement": "The distance used for a pulsar is the tabulated one under its own name, for names without J/B prefix the J entry if present and else the B entry, and otherwise (1.0, 0.2).", "quantifier": "all names and distance tables", "why_tests_cant": "all tables", "anchors": ["enterprise/pulsar.py:BasePulsar._get_pdist (L74-93)"]}
{"id": "C86", "title": "The model summary counts parameters correctly", "statement": "The summary's number of varying parameters equals len(param_names), and total = varying + fixed; the fixed count equals the number of constant parameters only if parameters are listed.", "quantifier": "all models", "why_tests_cant": "all models", "anchors": ["enterprise/signals/signal_base.py:PTA.summary (L729-773)"]}
{"id": "C87", "title": "A successful evaluation after failures is returned", "statement": "When the underlying method of a cached call succeeds, the call returns the computed value. This holds as long as no earlier evaluation raised; after `limit` failed evaluations at the same parameters, the first successful evaluation at them raises KeyError instead of returning.", "quantifier": "all call histories and limits >= 1", "why_tests_cant": "needs histories in which a call fails first and is retried, e.g. a constant set only after a failed evaluation", "anchors": ["enterprise/signals/signal_base.py:cache_call (L1054-1067)"]}
{"id": "C88", "title": "A kernel matrix is inverted as itself", "statement": "KernelMatrix.inv returns the inverse and the log-determinant of the matrix. For a dense matrix that is symmetric but not positive definite the fallback returns the inverse of |A| (the matrix with absolute eigenvalues) without raising.", "quantifier": "all matrices", "why_tests_cant": "all matrices; tests use covariances", "anchors": ["enterprise/signals/utils.py:KernelMatrix.inv (L288-309)"]}
{"id": "C89", "title": "The three ECORR methods give the same noise", "statement": "The methods 'sherman-morrison', 'block' and 'sparse' of EcorrKernelNoise give noise objects with the same solves and log-determinants once added to the same positive diagonal noise, in either order; 'block' needs at least one epoch; 'sparse' raises when the covariance is not positive definite.", "quantifier": "all disjoint epochs, positive noise values, all arrays", "why_tests_cant": "all sizes and values", "anchors": ["enterprise/signals/white_signals.py:EcorrKernelNoise._get_ndiag_sherman_morrison, _get_ndiag_sparse, _get_ndiag_block (L255-287)"]}
{"id": "C90", "title": "A wideband timing model needs a jump selection", "statement": "WidebandTimingModel with its default arguments (a DM jump and no selection for it) refuses every pulsar with ValueError; with dmjump=None or more than one label it is accepted whenever the DMX table is.", "quantifier": "all pulsars and DMX tables", "why_tests_cant": "the refusal has to be shown for every pulsar", "anchors": ["enterprise/signals/gp_signals.py:WidebandTimingModel.__init__ (L566-567)"]}
{"id": "C91", "title": "An empty DMX interval", "statement": "A DMX interval that holds no TOA is accepted by the constructor, but evaluating the log signal prior then raises IndexError for all parameter values.", "quantifier": "all DMX tables with an empty interval, all DM values and errors", "why_tests_cant": "needs every position of the empty interval and all values", "anchors": ["enterprise/signals/gp_signals.py:WidebandTimingModel.get_logsignalprior (L753-771)"]}
{"id": "C92", "title": "Filtering keeps the parameter names of the design matrix", "statement": "After filter_data the names in fitpars label the columns of Mmat. This is false: columns that vanish are dropped from the design matrix but not from fitpars, so every later column carries the name of an earlier one.", "quantifier": "all data sets and intervals", "why_tests_cant": "needs a column that vanishes only within the interval", "anchors": ["enterprise/pulsar.py:BasePulsar.filter_data (L138-163)"]}
{"id": "C93", "title": "Explicit Fourier frequencies", "statement": "createfourierdesignmatrix_red accepts the frequencies of `modes` as documented ('option to provide explicit list or array of sampling frequencies'). False for a list: it raises TypeError for every non-empty array of TOAs; an array is used as given.", "quantifier": "all lists and TOAs", "why_tests_cant": "the refusal has to be shown for all lists", "anchors": ["enterprise/signals/gp_bases.py:createfourierdesignmatrix_red (L42, L65-89)"]}
{"id": "C94", "title": "Seeded phase shifts are reproducible and shared", "statement": "With pseed the basis is the same whatever the state of numpy's generator. The seed is formed from the first TOA in units of 17 seconds only, so two pulsars whose first TOAs fall into the same unit get the same phases and keep their unshifted cross covariance.", "quantifier": "all generators, states, TOAs and seeds", "why_tests_cant": "needs all generator states; sharing has to be shown for whole intervals of TOAs", "anchors": ["enterprise/signals/gp_bases.py:createfourierdesignmatrix_red (L71-80)"]}
{"id": "C95", "title": "The general basis agrees with the specialised ones at every index", "statement": "createfourierdesignmatrix_general with chromatic index idx and tndm equals createfourierdesignmatrix_dm_tn with that index. False for idx = 0, which is treated as absent: the normalisation is dropped.", "quantifier": "all TOAs, radio frequencies and indices", "why_tests_cant": "tests use positive indices", "anchors": ["enterprise/signals/gp_bases.py:createfourierdesignmatrix_general (L338-350)"]}
{"id": "C96", "title": "The ephemeris basis gives a dipole-correlated process", "statement": "createfourierdesignmatrix_ephem with a powerlaw of components=6 and coefficients common to all pulsars gives between two pulsars the covariance of the plain Fourier GP times the scalar product of their positions; with the default components=2 four of the six columns of each frequency get zero variance.", "quantifier": "all TOAs, positions, mode counts and hyperparameters", "why_tests_cant": "equality of covariances for all times", "anchors": ["enterprise/signals/gp_bases.py:createfourierdesignmatrix_ephem (L214-250)", "enterprise/signals/gp_priors.py:powerlaw (L14-19)"]}
{"id": "C97", "title": "Correlations of an anisotropic background are those of its sky map", "statement": "mapFromClm and mapFromClm_fast give the same map for the same real coefficients; the correlation matrix of a map is symmetric, doubled on its diagonal, and positive semidefinite for maps without negative pixels; anis_basis weighted with real coefficients adds up to the correlation matrix of the map of those coefficients, so anis_orf gives the correlations of that map; and the responses of a pulsar to plus and cross waves alternate in columns with total power ((1-cos)/2)^2 times 3/2 over the number of pixels, where cos is the cosine between pulsar and pixel.", "quantifier": "all pulsars, pixels, maximal degrees, real coefficients and maps; for harmonics with the conjugation symmetry", "why_tests_cant": "identities between sums over arbitrarily many pixels and modes; the tests compare a few numbers", "anchors": ["enterprise/signals/anis_coefficients.py:real_sph_harm, signalResponse_fast, createSignalResponse_pol, mapFromClm_fast, mapFromClm, getCov, anis_basis (L18-332)", "enterprise/signals/utils.py:anis_orf (L865-889)"]}
{"id": "C98", "title": "The Hellings-Downs correlation matrix is positive definite", "statement": "For pulsars in distinct sky directions the matrix of Hellings-Downs correlations has no eigenvalue below one half, so a common process with these correlations and non-negative powers always has a valid prior covariance that can be inverted; with pulsars in the same direction it is still positive semidefinite. No constant above one half holds for all arrays.", "quantifier": "all numbers of pulsars, all unit vectors, all coefficients and powers", "why_tests_cant": "unit tests evaluate the matrix for a few pulsars; definiteness for every array is a statement about the whole curve", "anchors": ["enterprise/signals/utils.py:hd_orf (L845-853)", "enterprise/signals/gp_signals.py:BasisCommonGP.get_phicross (L376-411)"]}
{"id": "C99", "title": "Every TOA gets the waveform of its own selection", "statement": "The delay of a deterministic signal has one entry per TOA: that of the waveform made for the TOA's selection, evaluated with that selection's own parameters, and zero for TOAs in no selection; a TOA in several selections keeps the one with the last key. If a waveform raises or has the wrong length, the delay raises the exception of the first such key in sorted order. The signal's parameters are those of all its waveforms, each once.", "quantifier": "all waveforms, selections, numbers of TOAs and parameter values", "why_tests_cant": "tests use one or two fixed selections; sharing and overwriting of entries depends on all masks", "anchors": ["enterprise/signals/deterministic_signals.py:Deterministic (L14-53)"]}
{"id": "C100", "title": "Splitting the TOAs does not change a pointwise waveform", "statement": "If a waveform works entry by entry and its parameters are common to all selections, then the delay is the same for every selection that covers the TOAs. False for waveforms with a function among their keywords: it is not passed the mask and the signal raises ValueError. The delay depends on the parameters listed in delay_params and on constants only; values given for constants are not listed.", "quantifier": "all pointwise functions, selections, pulsars and parameter values", "why_tests_cant": "an equality between infinitely many pairs of selections", "anchors": ["enterprise/signals/deterministic_signals.py:Deterministic.get_delay (L40-51)", "enterprise/signals/selections.py:selection_func (L20-51)", "enterprise/signals/parameter.py:Function.__call__ (L512-571)"]}
{"id": "C101", "title": "The ephemeris delay by epochs is the delay at the epochs' mean times", "statement": "With use_epoch_toas every TOA gets the ephemeris delay of a single TOA at the mean time of its epoch with planet and pulsar positions interpolated to that time, independently of earlier evaluations; TOAs at least a second from all others get exactly the delay without epochs. Epochs are one second long, not a day as the code's comment says.", "quantifier": "all TOAs, positions, corrections and orbits", "why_tests_cant": "tests compare one data set; equality for isolated TOAs and independence of earlier contents are universal", "anchors": ["enterprise/signals/deterministic_signals.py:PhysicalEphemerisSignal (L163-206)"]}
{"id": "C102", "title": "Waveforms of eccentric binaries are the integrals of their strain", "statement": "For chirp mass and distance given as numbers, calculate_splus_scross returns functions of the TOAs whose time derivatives are the plus and cross strain of an eccentric binary with precessing periastron, summed over the harmonics 1 to nmax-1, unless a harmonic resonates with the precession; without h0 the amplitude is that of mass and distance; a circular orbit radiates at twice its frequency only; seen from below the cross waveform changes sign, edge-on it vanishes. False: the docstring's count of nmax harmonics, and masses given as arrays, which are overwritten in place so that the three coefficients see different masses.", "quantifier": "all masses, distances, frequencies, eccentricities, angles, TOAs and numbers of harmonics; any Bessel functions (with their values at zero for circular orbits)", "why_tests_cant": "the tests check the shape of the result only; an identity of functions cannot be sampled", "anchors": ["enterprise/signals/utils.py:get_an, get_bn, get_cn, calculate_splus_scross (L537-685)"]}
{"id": "C103", "title": "Orbits evolve as Peters' equations say", "statement": "Every solution of get_coupled_ecc_eqns keeps Peters' relation between frequency and eccentricity; its frequency, angle of periastron and phase grow and its eccentricity shrinks; through every state there is a solution. The frequency rate is that of the quadrupole formula times the enhancement factor, which grows with eccentricity; the precession is that of the total mass and the same for both mass ratios. With constant eccentricity frequency and phase have the closed form of a chirp which ends at the merger.", "quantifier": "all masses, mass ratios, frequencies, eccentricities between zero and one, and all solutions on any interval", "why_tests_cant": "the tests check the shape of one numerical solution; invariants of all solutions are not testable", "anchors": ["enterprise/signals/utils.py:get_edot, get_Fdot, get_gammadot, get_coupled_constecc_eqns, get_coupled_ecc_eqns (L356-484)"]}
{"id": "C104", "title": "Densities, log densities, quantiles and samples of a parameter agree", "statement": "For every parameter class get_pdf is the exponential of get_logpdf and get_logpdf the logarithm of get_pdf, for numbers and vectors and whichever of prior and logprior the class defines; without a value both use the one in params under the parameter's name, else raise KeyError. A uniform parameter with bounds given as numbers, arrays, constants or other parameters has log density minus the sum of the logarithms of its widths inside and minus infinity if any entry is outside; the bounds of its quantile function and its sampler are the same; a missing bound raises TypeError. A sampler is called with the keywords of the density and the size; a sampler with the arguments of the density, as documented, cannot be called. The length of a vector is not checked.", "quantifier": "all parameter classes, functions, keywords, values and parameter dictionaries", "why_tests_cant": "tests evaluate a few classes at a few values; the agreement of two functions at all values and for user-defined classes is universal", "anchors": ["enterprise/signals/parameter.py:Parameter, GPCoefficients, UserParameter, Uniform (L39-239)"]}
{"id": "C105", "title": "Sky positions are consistent", "statement": "pos is the unit vector of raj and decj and of theta and phi; every direction has coordinates and no two coordinates away from the poles share a direction; the scalar product of two positions is the cosine of their separation. For a Tempo2Pulsar pos_t equals pos at all TOAs, for equatorial and ecliptic coordinates, if the name has no B. False with a B in the name: ecliptic coordinates are then converted to 1950, pos_t to J2000; this includes J names such as J0024-7204B.", "quantifier": "all coordinates, names, numbers of TOAs; any conversion that is the rotation by the obliquity for J2000", "why_tests_cant": "tests compare one or two pulsars with a tolerance; identities on the sphere are not testable", "anchors": ["enterprise/pulsar.py:_get_radec_from_ecliptic, _get_pos (L94-124), theta, phi (L288-296), PintPulsar._get_radec (L431-439), Tempo2Pulsar.__init__, _get_radec (L535-537, L577-585)"]}
{"id": "C106", "title": "Pulsars take over DM, DMX, flags and planets from the timing packages", "statement": "psr.dmx has for every DMX parameter its value, error and range: of those PINT fits, of those set in tempo2. psr.flags has an array for every flag any PINT TOA has, with the flag's value at each TOA and an empty string where it is not set. The planets of a PintPulsar are (planet from observatory plus observatory) in light seconds and nan exactly for the planets and velocities PINT does not have; a missing table column raises ValueError. setpars are the parameters that are not fitted. False: that fit tells whether a DMX parameter is fitted (it is always true), and that dmx has all DMX parameters of the par file.", "quantifier": "all models, tables, flag dictionaries and numbers of TOAs", "why_tests_cant": "tests load a few data files; which flags and parameters occur together is not bounded", "anchors": ["enterprise/pulsar.py:PintPulsar.__init__ (L356-373), _set_dm (L404-429), _get_ssb_lsec, _get_planetssb, _get_sunssb (L441-484), Tempo2Pulsar._set_dm (L551-575)"]}
{"id": "C107", "title": "Making a pulsar of a tempo2 object", "statement": "The planets and directions of a Tempo2Pulsar do not depend on the corrections of planet masses in the tempo2 object, which are set to zero in the caller's object; nothing else in the object changes. A second pulsar of the same object is the same if the corrections were zero. False in general: its TOAs may differ.", "quantifier": "all values of the parameters and anything tempo2 computes from them", "why_tests_cant": "side effects on an object of another package, for all its contents", "anchors": ["enterprise/pulsar.py:Tempo2Pulsar.__init__ (L487-548), _get_planetssb (L587-608)"]}
{"id": "C108", "title": "Pulsars drop what cannot be pickled", "statement": "After drop_not_picklable a pulsar has no attribute of the timing package left, whatever sequence of drops came before, it keeps its other attributes, and no exception is raised. drop_pintpsr removes the four attributes if they are there. False: that drops may be repeated; the second drop_pintpsr or drop_tempopsr raises AttributeError, as only NameError is suppressed.", "quantifier": "all sequences of constructions and drops", "why_tests_cant": "tests drop once", "anchors": ["enterprise/pulsar.py:drop_not_picklable (L170-175, L397-403, L616-620), drop_pintpsr (L390-395), drop_tempopsr (L546-548)"]}
{"id": "C109", "title": "Gaussian process signals do not depend on what was asked before", "statement": "Whatever sequence of get_basis, get_phi, get_delay and coefficient densities is asked of one BasisGP object, each answer is that of the parameters of its own question: the basis has the block of each selection at the selection's TOAs and zeros elsewhere, phi the prior of each selection at its columns, the delay is the sum of basis times coefficients over the selections of a TOA, and the log density of a selection's coefficients is that of the prior at the values of the parameters of that selection. The caches of the basis and of the delay do not show. False: that the same holds after a basis function has raised an exception (labels of the failed call remain: KeyError or, silently, another density), and for a constant of the basis overridden through params; that coefficients of the wrong length are refused (one coefficient, or one prior variance, is broadcast and the normalisation wrong).", "quantifier": "all prior and basis functions (of parameters, for the basis without constants), selections, parameter values and sequences of questions that can be answered", "why_tests_cant": "the caches are filled by earlier calls; tests do not go through all sequences", "anchors": ["enterprise/signals/gp_signals.py:BasisGP (L24-185)", "enterprise/signals/signal_base.py:cache_call (L1028-1067)"]}
{"id": "C110", "title": "Parameters of Gaussian process signals", "statement": "The parameters of a BasisGP are those of the prior and the basis function of each selection and, with sampled coefficients, for each selection one vector <pulsar>_<name>_<selection>_coefficients with as many elements as the selection's basis has columns. A parameter class given for a keyword makes different parameters for different selections. False: that parameters of different keywords are different (key a with keyword b_c and key a_b with keyword c share one parameter), and that prior and basis functions that have a keyword in common have separate parameters: the prior's one is lost.", "quantifier": "all prior and basis functions, selections and names", "why_tests_cant": "which names come together depends on the keys of selections and keywords", "anchors": ["enterprise/signals/gp_signals.py:BasisGP.__init__ (L41-83)", "enterprise/signals/parameter.py:Function.__init__ (L460-510)"]}
{"id": "C111", "title": "Delays of common processes with sampled coefficients", "statement": "The delay of a BasisCommonGP with sampled coefficients is the basis times the coefficients for the parameters of the call, whatever calls came before, if the coefficients are made by the signal or are a parameter whose name contains _coefficients. False for other given parameters: the name is not part of the cache key and the first delay is returned for all values.", "quantifier": "all basis functions without constants, coefficients and sequences of calls", "why_tests_cant": "the caches are filled by earlier calls", "anchors": ["enterprise/signals/gp_signals.py:BasisCommonGP (L285-368)"]}
{"id": "C112", "title": "ECORR as a basis and as a kernel is the same model", "statement": "EcorrBasisModel and EcorrKernelNoise of the same TOAs, selections and values have the same covariance, and a model has the same log likelihood with either, by each method of the kernel, whatever the other signals, white noise and pulsars are, with or without a marginalised timing model. False without an epoch of two TOAs: the kernel then adds nothing, but the collection with the basis raises IndexError.", "quantifier": "all TOAs, non-empty disjoint selections, values, positive white noise, other signals with proper priors, and pulsars; the hash of columns without collisions", "why_tests_cant": "the tests compare each with a reference for one pulsar; equality for all data sets and models is universal", "anchors": ["enterprise/signals/gp_signals.py:ecorr_basis_prior, EcorrBasisModel (L254-281)", "enterprise/signals/white_signals.py:EcorrKernelNoise (L208-294)", "enterprise/signals/signal_base.py:SignalCollection (L877-977)"]}
{"id": "C113", "title": "An array's answers do not depend on what was evaluated before", "statement": "Whatever sequence of likelihoods, methods of the collections of single pulsars and methods of single signals is evaluated on one PTA object, each result is that of the parameters of its own call: what a new object would give. This holds for arrays of white noise, deterministic signals, Gaussian processes with or without sampled coefficients, and common processes, and for any other signals whose answers depend on the parameters they declare. The caches of signals, collections and arrays do not show. False: after a call that raised an exception (parameters evaluated before then raise KeyError), for values given in params to constants (the first likelihood is returned), and for sampled coefficients on a basis with varying parameters (the delay of the first basis is returned).", "quantifier": "all numbers of pulsars and signals, functions, selections, parameter values and sequences of calls that can be answered", "why_tests_cant": "the caches are filled by earlier calls; tests evaluate short sequences on a few models", "anchors": ["enterprise/signals/signal_base.py:SignalCollection (L776-1006), LogLikelihood.__call__ (L180-264), PTA (L342-400, L415-673), cache_call (L1028-1067)", "enterprise/signals/white_signals.py:WhiteNoise (L28-65)", "enterprise/signals/deterministic_signals.py:Deterministic (L14-53)", "enterprise/signals/gp_signals.py:BasisGP, BasisCommonGP"]}
{"id": "C114", "title": "The likelihood of an array object is the Gaussian density of the model its signals make", "statement": "After any sequence of evaluations on one PTA object, get_lnlikelihood(params) is the log density of the residuals less the sum of the signals' delays, under the Gaussian with covariance the sum of the signals' noise plus F phi F^T for every Gaussian process, marginalised over the timing model where the noise says so, plus the log priors of sampled coefficients. Without common signals it is the sum over the pulsars; with a common signal in every pulsar it is the density of all residuals together, with orf(i,j) F_i phi F_j^T between pulsars i and j, by each of the three methods for inverting the prior. Columns shared by several processes, bases that vary with parameters, and the caches of signals, collections and arrays do not change this.", "quantifier": "all numbers of pulsars, signals, TOAs and columns, all parameter values, sequences of evaluations that can be answered, and methods; proper priors, positive noise and a positive definite correlation", "why_tests_cant": "the value depends on all signals, on what was evaluated before and on the numbers; tests compare a few models at a few points", "anchors": ["enterprise/signals/signal_base.py:LogLikelihood.__call__ (L180-264), PTA (L342-400, L415-673), SignalCollection (L776-1006)"]}
{"id": "C115", "title": "The likelihood of an array of signals follows from the functions they were made with", "statement": "For a PTA of white noise, deterministic signals, Gaussian processes with or without sampled coefficients, and common processes, each of any sequence of likelihoods is the Gaussian log density whose parts are what the user's functions return for the parameters: noise variances are added over the selections a TOA belongs to, waveforms are put at the TOAs of their selection, bases of selections stand side by side with zeros elsewhere and priors after each other, sampled coefficients give the delay basis times coefficients, and a common process has orf(pos_i,pos_j) F_i phi F_j^T between pulsars.", "quantifier": "all functions without nested functions and constants given in params, names, selections, numbers of pulsars, TOAs, columns and signals, parameter values, methods, and sequences of likelihoods; proper priors, positive noise, positive definite correlations", "why_tests_cant": "what is assembled depends on the functions, selections and values, and on what was evaluated before; tests compare a few models at a few points", "anchors": ["enterprise/signals/white_signals.py:WhiteNoise (L28-65)", "enterprise/signals/deterministic_signals.py:Deterministic (L14-53)", "enterprise/signals/gp_signals.py:BasisGP (L24-185), BasisCommonGP (L285-410)", "enterprise/signals/signal_base.py:LogLikelihood.__call__ (L180-264), PTA (L342-400, L415-673), SignalCollection (L776-1006)"]}
{"id": "C116", "title": "Several correlated processes in an array", "statement": "For a PTA with several common signals, each present in all or only some of the pulsars, get_lnlikelihood(params) is, after any sequence of evaluations, the Gaussian log density of all residuals in which pulsars i and j have the covariance sum of orf_c(i,j) F_ci phi_c F_cj^T over the common signals c that both have, and each pulsar its own noise and processes. This holds by method sparse always, by method cliques when any two of the common signals have the same columns in all pulsars or different columns, and by each method when only one common signal is in several pulsars. False for partition with two common signals (C41).", "quantifier": "all numbers of pulsars, common signals, other signals, TOAs and columns, parameter values and sequences of evaluations that can be answered; proper priors, positive noise and positive definite correlations", "why_tests_cant": "which pulsars have which common signals, and which columns they share, decides what is assembled; tests have one or two common signals in every pulsar", "anchors": ["enterprise/signals/signal_base.py:PTA._commonsignals (L384-405), get_phiinv, get_phi (L407-673), LogLikelihood.__call__ (L180-264)"]}
{"id": "C117", "title": "Arrays with ECORR noise, marginalised timing models and several common processes", "statement": "As for arrays of white noise, waveforms and processes, each of any sequence of likelihoods of one PTA is the Gaussian log density of the residuals when the signals also include ECORR noise, by the Sherman-Morrison or the block method and with parameters or constants, and marginalised timing models, and when common processes of several classes are each in some of the pulsars. ECORR adds the covariance 10^(2 log10_ecorr) between TOAs of one epoch: two or more TOAs of one selection within a second, simultaneous ones always together, no TOA in two epochs. The timing model is integrated out with the columns its basis function returns.", "quantifier": "all functions without nested functions and constants given in params, names, selections, TOAs, numbers of pulsars, classes and signals, parameter values and sequences of likelihoods; white noise before the timing model and the timing model before ECORR in a sum, disjoint non-empty selections for ECORR, proper priors, positive noise, positive definite correlations", "why_tests_cant": "what is assembled depends on TOAs, selections, functions and values, and on what was evaluated before; tests compare a few models at a few points", "anchors": ["enterprise/signals/white_signals.py:EcorrKernelNoise (L199-294)", "enterprise/signals/gp_signals.py:MarginalizingTimingModel (L791-819), BasisCommonGP (L285-410)", "enterprise/signals/signal_base.py:LogLikelihood.__call__ (L180-264), PTA (L342-400, L415-673), SignalCollection (L776-1006)"]}
{"id": "C118", "title": "Wideband timing models in arrays", "statement": "A PTA whose pulsars include WidebandTimingModel returns, for any sequence of likelihoods, the log of the integral over the timing parameters of the density of the residuals less the timing model, with the noise, delays and processes of the other signals, times the density of all DM measurements, corrected by DMJUMP, DMEFAC and DMEQUAD of the parameters of that call, about DM + DMX. Parameters other than DMX have the prior variance 1e40. Parameters and constants, the reference label of the jumps and the caches of the eight methods are covered; common processes of several classes may be present.", "quantifier": "all names, selections, DMX tables with every TOA in one interval and no empty interval, timing parameters, functions without nested functions and constants given in params, numbers of pulsars and signals, parameter values and sequences of likelihoods; positive DM uncertainties, design matrix columns of DMX that are those of a dispersion delay", "why_tests_cant": "delay, prior and log prior are computed by methods that cache each other's results; that they add up to a density of the data depends on all of them; tests compare a few values", "anchors": ["enterprise/signals/gp_signals.py:WidebandTimingModel (L522-771)", "enterprise/signals/signal_base.py:LogLikelihood.__call__ (L180-264), SignalCollection (L776-1006)"]}
{"id": "C119", "title": "The chi-squared of wideband DMs", "statement": "get_delta_dm gives DM (or the weighted mean DM of the interval) less psr.dm + DMX. get_dm_chi2(params) is the sum over all TOAs of the squared differences over the squared uncertainties; with use_mean_dm=True it is the sum over intervals with the variance of the mean. The first is the second plus the scatter of the DMs about their means. With an interval that holds no TOA the second raises IndexError.", "quantifier": "all DMX tables with every TOA in one interval, DMs and positive uncertainties", "why_tests_cant": "the identity holds for all data; tests do not call these methods", "anchors": ["enterprise/signals/gp_signals.py:get_delta_dm, get_dm_chi2 (L773-799)"]}
{"id": "C120", "title": "The standard model of a gravitational-wave background", "statement": "A PTA built with the library's factories, where each pulsar has MarginalizingTimingModel, MeasurementNoise by selection with EFAC and optionally EQUAD, optionally TNEquadNoise and EcorrKernelNoise by selection, any processes with or without selection (FourierBasisGP, or BasisGP with createfourierdesignmatrix_dm or _chromatic) and FourierBasisCommonGP with hd_orf, dipole_orf or monopole_orf, the spectra being powerlaw, free_spectrum or any function with positive variances, such as turnover, the keywords being Parameter or Constant classes or instances or numbers, returns for any sequence of likelihoods the Gaussian log density of the residuals of all pulsars, with the parameters of the timing models integrated out. The variance of a TOA is efac^2 (sigma^2 + 10^(2 log10_t2equad)) + 10^(2 log10_tnequad) with the parameters named psr_selection_efac and so on; TOAs in an epoch share 10^(2 log10_ecorr); two TOAs of a pulsar share the sum over frequencies k/T of the variance (for a power law its density times 1/T, for a free spectrum 10^(2 log10_rho_k)) times cos(2 pi f (t - t')) for each process, for dispersion and chromatic noise times (1400/nu)^2 or (1400/nu)^idx of both radio frequencies, and for the common process; a process with a selection adds this for each selection that has both TOAs, with parameters named psr_process_selection_x and by default with the time span of the selected TOAs; two TOAs of different pulsars share that of the common process times the correlation of their positions. Without Tspan the span of the common process is that of the TOAs of all pulsars.", "quantifier": "all numbers of pulsars (at least two, in different directions), TOAs, uncertainties, design matrices of full rank, disjoint selections of all TOAs, numbers of frequencies, time spans, parameter values with efac not zero, methods and sequences of likelihoods", "why_tests_cant": "covers factories, naming, functions, caches and linear algebra in one statement; tests compare parts at a few points, and no test compares a likelihood of correlated pulsars with a density", "anchors": ["enterprise/signals/white_signals.py:MeasurementNoise (L78-97), TNEquadNoise (L100-116), EcorrKernelNoise (L199-294)", "enterprise/signals/gp_signals.py:FourierBasisGP (L188-216), FourierBasisCommonGP (L412-464), MarginalizingTimingModel (L791-819)", "enterprise/signals/gp_bases.py:createfourierdesignmatrix_red (L25-91), createfourierdesignmatrix_dm (L94-127), createfourierdesignmatrix_chromatic (L261-292)", "enterprise/signals/gp_priors.py:powerlaw, turnover, free_spectrum (L13-38)", "enterprise/signals/utils.py:hd_orf, dipole_orf, monopole_orf (L845-871), normed_tm_basis (L900-914)", "enterprise/signals/signal_base.py:LogLikelihood.__call__ (L180-264), PTA (L342-673)"]}
{"id": "C121", "title": "Noise models of pulsars built with the factories", "statement": "A PTA of any number of pulsars without common signals, each with MarginalizingTimingModel, MeasurementNoise by selection with EFAC and optionally EQUAD, optionally TNEquadNoise and EcorrKernelNoise by selection, and any number of processes with or without selection (FourierBasisGP, or BasisGP with createfourierdesignmatrix_dm or createfourierdesignmatrix_chromatic), returns for any sequence of likelihoods the sum over the pulsars of the Gaussian log density of their residuals, with the parameters of the timing model integrated out and the covariance of C120. A parameter instance given as keyword is one parameter of all pulsars (a common spectrum without correlations); a parameter class makes one per pulsar named after pulsar and process.", "quantifier": "all numbers of pulsars, processes, TOAs, uncertainties, radio frequencies, design matrices of full rank, disjoint selections of all TOAs, numbers of frequencies, time spans, chromatic indices, parameter values with efac not zero, methods and sequences of likelihoods", "why_tests_cant": "covers factories, naming, functions, caches and linear algebra in one statement; tests compare parts at a few points", "anchors": ["enterprise/signals/white_signals.py:MeasurementNoise (L78-97), TNEquadNoise (L100-116), EcorrKernelNoise (L199-294)", "enterprise/signals/gp_signals.py:BasisGP (L24-185), FourierBasisGP (L188-216), MarginalizingTimingModel (L791-819)", "enterprise/signals/gp_bases.py:createfourierdesignmatrix_red, createfourierdesignmatrix_dm, createfourierdesignmatrix_chromatic (L25-127, L261-292)", "enterprise/signals/gp_priors.py:powerlaw, turnover, free_spectrum (L13-38)", "enterprise/signals/signal_base.py:LogLikelihood.__call__ (L180-264), PTA (L342-673)"]}
{"id": "C122", "title": "Noise dictionaries: constants set after construction", "statement": "After pta.set_default_params(noisedict), and before the first evaluation, a PTA behaves as if it had been built with the values of noisedict for the constants it names: constants it does not name keep their values, sampled parameters and numbers do not change, entries that name no constant have no effect. In particular the standard model built with Constant() for EFAC, EQUAD, ECORR, process and background parameters returns the log densities of C120 and C121 with the values of the dictionary. After an evaluation the values are not seen by calls with the same parameters, as cached results do not depend on constants. Constants of functions given as keywords are set as well, unless another keyword of the same name hides them from the parameters of the function that takes them; these keep their values.", "quantifier": "all dictionaries, signals whose coefficients are not sampled, numbers of pulsars and signals, parameter values and sequences of likelihoods; DM jumps without reference label; no name both of a constant and of a parameter of one signal", "why_tests_cant": "which objects share a constant and which caches were filled decides what a dictionary changes; tests set one dictionary before one evaluation", "anchors": ["enterprise/signals/signal_base.py:Signal.set_default_params (L123-133), PTA.set_default_params (L365-367), SignalCollection.set_default_params (L873-875)", "enterprise/signals/parameter.py:ConstantParameter, Constant", "enterprise/signals/white_signals.py:MeasurementNoise, EcorrKernelNoise", "enterprise/signals/gp_signals.py:BasisGP, BasisCommonGP, WidebandTimingModel"]}
{"id": "C123", "title": "Spectra with turnover, knee or break get their keywords by name", "statement": "turnover, turnover_knee and broken_powerlaw made into function classes with keywords (Parameter or Constant classes or instances, or numbers, in any order) give a process of a pulsar or a common process at f = k/T the variance of the power law of log10_A and gamma times 1/T and, respectively, (1 + (10^lf0/f)^kappa)^(-2 beta), (1 + f/10^lfk)^(2 delta) / (1 + (10^lfb/f)^kappa), and (1 + (f/10^log10_fb)^(1/kappa))^(kappa (gamma - delta)). Parameters are named after pulsar, process, selection and keyword. Keywords left out have their defaults: for turnover log10_A = -15, gamma = 4.33, lf0 = -8.5, kappa = 10/3, beta = 0.5; for broken_powerlaw kappa = 0.1. The variances are positive, so these are spectra of C120 to C122.", "quantifier": "all keyword lists without repetitions that have the keywords without defaults, parameter values (kappa of the break not zero), names, numbers of frequencies and time spans; with or without pulsar", "why_tests_cant": "each function takes five or six numbers of the same kind, so exchanged arguments or defaults give plausible spectra", "anchors": ["enterprise/signals/gp_priors.py:turnover (L22-26), turnover_knee (L98-117), broken_powerlaw (L120-139)", "enterprise/signals/parameter.py:Function (L452-585), function (L605-638)", "enterprise/signals/selections.py:selection_func (L20-51)"]}
{"id": "C124", "title": "Slopes of the spectra below and above their bends", "statement": "The variances of powerlaw, turnover, turnover_knee and broken_powerlaw are a density times the distances of the frequencies, and the density has on logarithmic scales the slope - gamma for the power law; - gamma + 2 beta kappa x/(1+x) with x = (10^lf0/f)^kappa for the turnover; - gamma + kappa x/(1+x) + 2 delta y/(1+y) with x = (10^lfb/f)^kappa and y = f/10^lfk for the knee. The broken power law has the slope - gamma far below 10^log10_fb and - delta far above, and the slope is nearer to - gamma exactly below the break. The docstring states the opposite (gamma for f > f_break).", "quantifier": "all parameter values (kappa > 0 for the limits of the broken power law), frequencies and lists of positive frequencies", "why_tests_cant": "slopes are derivatives and limits; a test of values at some frequencies compares the formula with itself", "anchors": ["enterprise/signals/gp_priors.py:powerlaw (L14-19), turnover (L22-26), turnover_knee (L98-117), broken_powerlaw (L120-139)"]}
{"id": "C125", "title": "Names of the parameters of a PTA", "statement": "The parameters of the signals of a PTA are exactly those the factories were asked for, each under the name made of the nonempty ones of pulsar, signal, label of the selection, function and keyword (or its own name if it was an instance), whatever the signals: white noise, deterministic signals, processes (with their vectors of coefficients if these are sampled), common processes, ECORR and wideband timing models. Constants, numbers and the DM jump of the reference label are not among them, marginalised timing models have none, and set_default_params changes none of them. In particular the standard model has the parameters PSR_BACKEND_efac, PSR_BACKEND_log10_t2equad, PSR_BACKEND_log10_tnequad, PSR_BACKEND_log10_ecorr, PSR_PROCESS_LABEL_KEYWORD and gw_KEYWORD and no others.", "quantifier": "all arrays of signals whose functions take no functions, selections, keywords and names; no name both of a constant and of a parameter of one signal", "why_tests_cant": "samplers, noise dictionaries and chains match parameters by name; tests list the names of a few models", "anchors": ["enterprise/signals/signal_base.py:Signal.params (L98-101)", "enterprise/signals/parameter.py:Function (L452-585), Constant, Parameter", "enterprise/signals/selections.py:Selection.__call__ (L73-86)", "enterprise/signals/white_signals.py:WhiteNoise (L28-65), EcorrKernelNoise (L126-294)", "enterprise/signals/gp_signals.py:BasisGP (L24-185), BasisCommonGP (L285-411), WidebandTimingModel (L522-788)"]}
{"id": "C126", "title": "Pulsars and backends do not share white noise parameters", "statement": "If the names of pulsars contain no underscore, the EFAC, EQUAD, TNEQUAD and ECORR parameters that MeasurementNoise, TNEquadNoise and EcorrKernelNoise make by selection from parameter classes are different for different pulsars, different backends and different keywords, even if backends have underscores; the name determines all three. With underscores in names of pulsars this may fail: pulsars A with backend B_c and A_B with backend c share A_B_c_efac.", "quantifier": "all names of pulsars without underscores, names of backends (not empty) and pairs of them", "why_tests_cant": "an accidental shared name ties the noise of two pulsars together without any error; tests only use names that do not collide", "anchors": ["enterprise/signals/selections.py:Selection.__call__ (L73-86)", "enterprise/signals/white_signals.py:MeasurementNoise (L78-97), TNEquadNoise (L105-116), EcorrKernelNoise (L126-294)", "enterprise/signals/parameter.py:Function (L452-585)"]}
