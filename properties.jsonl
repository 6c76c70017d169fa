{"id": "C01", "title": "contract_matseq computes the ordered matrix product", "statement": "For every sequence of matrices of compatible shapes (given as one tensor or as a list), with zero, one or two boundary vectors and any broadcastable batch dimensions, with or without parallel_eval: whenever the exact product is not identically zero, contract_matseq returns finite numbers and contraction * exp(log_scale) equals the exact ordered product left_vec . M_1 ... M_L . right_vec, entry by entry and batch element by batch element; with log_format=False the product itself is returned.", "quantifier": "all matrix sequences, all lengths, all dimensions, all batch shapes, all boundary-vector combinations, both evaluation strategies, real and complex scalars", "why_tests_cant": "infinitely many shapes and lengths; tests sample a few with tolerances, and rescaling plus the r2l flip interact with each shape differently", "anchors": ["torchmps/mps_base.py:contract_matseq", "torchmps/mps_base.py:mat_reduce_par", "torchmps/mps_base.py:mat_reduce_seq", "torchmps/utils2.py:bundle_tensors", "torchmps/utils2.py:batch_broadcast"]}
{"id": "C02", "title": "Evaluation strategy does not change the value", "statement": "For the same matrices and boundary vectors, contract_matseq with parallel_eval=True and with parallel_eval=False, and with the matrices passed as one stacked tensor or as a list of equal-shaped tensors, denote the same product (contraction * exp(log_scale)) whenever that product is nonzero.", "quantifier": "all equal-shaped square matrix sequences, lengths, batch shapes and boundary vectors", "why_tests_cant": "an equality between two algorithms over all lengths (including every odd/even leftover pattern of the tree reduction)", "anchors": ["torchmps/mps_base.py:contract_matseq", "torchmps/mps_base.py:mat_reduce_par", "torchmps/mps_base.py:mat_reduce_seq"]}
{"id": "C03", "title": "contract_matseq returns zero when the product is zero", "statement": "contract_matseq returns the product of its inputs also when that product is the zero matrix/vector/scalar (no NaN).", "quantifier": "all matrix sequences whose product vanishes", "why_tests_cant": "random tests never hit an exactly vanishing product", "anchors": ["torchmps/mps_base.py:contract_matseq", "torchmps/mps_base.py:mat_reduce_seq", "torchmps/mps_base.py:mat_reduce_par"]}
{"id": "C04", "title": "get_mat_slices selects / contracts the right slices", "statement": "get_mat_slices(seq_input, core)[b,t] is core[x_bt] (uniform) or core[t, x_bt] (fixed length) for discrete inputs, and sum_i v_bti core[..., i] for vector inputs, for real and complex cores; discrete input i and the one-hot vector e_i give the same slice; indices follow the Python convention (for an alphabet of d letters, -d..-1 count from the end) and any index outside -d..d-1 raises IndexError.", "quantifier": "all batch sizes, lengths, alphabets, bond dimensions and core values", "why_tests_cant": "index arithmetic must be right for all positions; tests only check shapes", "anchors": ["torchmps/mps_base.py:get_mat_slices", "torchmps/utils2.py:CIndex"]}
{"id": "C05", "title": "slim_eval_fun computes the MPS amplitude", "statement": "slim_eval_fun(x, core, bound_vecs) returns (c, s) with c[b] * exp(s[b]) equal to bound_vecs[0] . A[x_b1] ... A[x_bn] . bound_vecs[1] for each batch element whose left partial products are all nonzero, for discrete and vector inputs, uniform and fixed-length cores.", "quantifier": "all nonempty sequences, batch sizes, bond dimensions, real and complex cores", "why_tests_cant": "needs an induction over the sequence length with an exact invariant on the rescaling", "anchors": ["torchmps/mps_base.py:slim_eval_fun"]}
{"id": "C06", "title": "get_log_norm is the log of the squared 2-norm", "statement": "For every fixed-length or uniform MPS with Z = sum over all index sequences |psi(x)|^2 nonzero, get_log_norm returns the finite number ln Z (exact arithmetic); the internal Hermitian/real checks never fail.", "quantifier": "all lengths, alphabets, bond dimensions, real and complex parameters", "why_tests_cant": "Z is a sum over exponentially many sequences; tests compare only up to length 10 binary", "anchors": ["torchmps/mps_base.py:get_log_norm", "torchmps/utils2.py:hermitian_trace", "torchmps/utils2.py:realify"]}
{"id": "C07", "title": "get_log_norm with a lambda matrix integrates the embedded density", "statement": "If lamb_mat (scalar, diagonal vector, or matrix) is sum_k w_k phi(k) phi(k)^dagger for nonnegative weights w and points k, then exp(get_log_norm) = sum over all sequences of points of (prod_t w) |psi(phi(k_1),...,phi(k_n))|^2, whenever this is nonzero.", "quantifier": "all lengths, embeddings, weights, MPS parameters, and the three lambda formats", "why_tests_cant": "sum over exponentially many sequences of grid points", "anchors": ["torchmps/mps_base.py:get_log_norm"]}
{"id": "C08", "title": "ProbMPS.forward returns Born-rule log probabilities", "statement": "For a ProbMPS (fixed length) forward(x)[b] = ln(|psi(x_b)|^2 / Z), with psi the exact contraction of (cores + bias) with the edge vectors, for each of the default, parallel_eval and (bias-free) slim_eval modes, whenever every amplitude in the batch is nonzero.", "quantifier": "all models (sizes, real/complex parameters, with/without bias), all batches of full-length discrete inputs", "why_tests_cant": "must hold for every parameter value, sequence and mode", "anchors": ["torchmps/prob_mps.py:ProbMPS.forward", "torchmps/prob_mps.py:ProbMPS.log_norm"]}
{"id": "C09", "title": "ProbMPS probabilities sum to one", "statement": "Calling a ProbMPS without embedding on a batch that lists every sequence of the alphabet once, if the call returns, the exponentials of the returned values sum to exactly 1; and each returned log probability is <= 0.", "quantifier": "all models, lengths, alphabets and modes", "why_tests_cant": "the sum has input_dim^seq_len terms; tests stop at 2^10", "anchors": ["torchmps/prob_mps.py:ProbMPS.forward", "torchmps/prob_mps.py:ProbMPS.log_norm"]}
{"id": "C10", "title": "ProbUnifMPS is a normalized Born machine at every length", "statement": "For a ProbUnifMPS and every sequence length n >= 1, forward(x)[b] = ln(|psi_n(x_b)|^2/Z_n) whenever the amplitudes are nonzero, and when forward returns on a batch listing all length-n sequences the probabilities sum to 1.", "quantifier": "all lengths n, models and modes", "why_tests_cant": "quantifies over all sequence lengths", "anchors": ["torchmps/prob_mps.py:ProbUnifMPS.forward", "torchmps/prob_mps.py:ProbUnifMPS.log_norm"]}
{"id": "C11", "title": "Zero-probability sequences get log probability -inf", "statement": "A sequence whose amplitude is exactly zero is given log probability -inf by forward in every evaluation mode, without disturbing the other elements of the batch.", "quantifier": "all models and sequences of zero amplitude, all three modes", "why_tests_cant": "exact zeros have measure zero under random testing", "anchors": ["torchmps/prob_mps.py:ProbMPS.forward", "torchmps/mps_base.py:contract_matseq", "torchmps/mps_base.py:slim_eval_fun"]}
{"id": "C12", "title": "Batch elements do not influence each other", "statement": "If forward returns for two batches, rows that are equal in the two batches get equal log probabilities, whatever the other rows and batch sizes are.", "quantifier": "all pairs of batches, all models and modes", "why_tests_cant": "relational property over all pairs of batches", "anchors": ["torchmps/prob_mps.py:ProbMPS.forward", "torchmps/mps_base.py:contract_matseq", "torchmps/mps_base.py:slim_eval_fun"]}
{"id": "C13", "title": "Biased models stay normalized", "statement": "With use_bias=True the probabilities of all sequences still sum to one, with and without an embedding.", "quantifier": "all bias matrices, embeddings and parameters", "why_tests_cant": "the existing test initializes the bias at zero, so it can never see a mismatch between forward and log_norm", "anchors": ["torchmps/prob_mps.py:ProbMPS.forward", "torchmps/prob_mps.py:ProbMPS.log_norm"]}
{"id": "C14", "title": "parallel_eval overrides slim_eval", "statement": "When both flags are given, forward behaves as with parallel_eval=True alone (documented: 'Overrides slim_eval when both are requested').", "quantifier": "all models (in particular those with bias) and inputs", "why_tests_cant": "documented precedence must hold for each configuration", "anchors": ["torchmps/prob_mps.py:ProbMPS.forward"]}
{"id": "C15", "title": "loss is the mean negative log likelihood", "statement": "loss(x) = -(1/B) sum_b forward(x)[b], for the same mode flags, and it raises whenever forward raises.", "quantifier": "all batches of size B >= 1", "why_tests_cant": "holds for every batch", "anchors": ["torchmps/prob_mps.py:ProbMPS.loss"]}
{"id": "C16", "title": "Discrete embeddings keep the model normalized", "statement": "For a FixedEmbedding over a discrete domain of m values (any embedding function), a bias-free ProbMPS satisfies sum over all m^n value sequences of exp(forward) = 1, when forward returns.", "quantifier": "all embedding functions, domains, lengths and parameters", "why_tests_cant": "sum over m^n sequences for every embedding function", "anchors": ["torchmps/embeddings.py:FixedEmbedding.make_lambda", "torchmps/prob_mps.py:ProbMPS.forward"]}
{"id": "C17", "title": "Continuous embeddings are normalized for the trapezoid rule", "statement": "For a continuous domain, the probability density computed by forward integrates to one under the 1000-point trapezoid rule used by the embedding (iterated over all sites of the sequence), for every embedding function and bias-free model.", "quantifier": "all embedding functions, intervals, lengths and parameters", "why_tests_cant": "exponentially large grid; tests use a single site", "anchors": ["torchmps/embeddings.py:FixedEmbedding.make_lambda", "torchmps/embeddings.py:TrainableEmbedding.make_lambda", "torchmps/prob_mps.py:ProbMPS.forward"]}
{"id": "C18", "title": "Rescaling an embedding leaves probabilities unchanged", "statement": "Multiplying an embedding function by any nonzero constant c leaves all normalized probabilities unchanged over a discrete domain.", "quantifier": "all nonzero constants, embeddings, models", "why_tests_cant": "tests use the single constant 3.14 with one-hot vectors; the tolerance-based simplification of lambda depends on the scale", "anchors": ["torchmps/embeddings.py:FixedEmbedding.make_lambda", "torchmps/prob_mps.py:ProbMPS.forward"]}
{"id": "C19", "title": "One-hot embedding is the identity embedding", "statement": "onehot_embed maps i to the i-th unit vector; FixedEmbedding computes lambda = 1 for it, and a ProbMPS using it returns the same log probabilities as the same model without embedding.", "quantifier": "all alphabet sizes, tensors of indices, models", "why_tests_cant": "holds for all sizes and all index tensors", "anchors": ["torchmps/embeddings.py:onehot_embed", "torchmps/embeddings.py:FixedEmbedding"]}
{"id": "C20", "title": "trig_embed gives unit vectors with binomial components", "statement": "trig_embed(x, d) has j-th component sqrt(binom(d-1,j)) cos(pi x/2)^(d-1-j) sin(pi x/2)^j and Euclidean norm exactly 1.", "quantifier": "all real x and all d >= 1", "why_tests_cant": "real-valued identity over all x and d", "anchors": ["torchmps/embeddings.py:trig_embed", "torchmps/embeddings.py:sincos_embed"]}
{"id": "C21", "title": "Trainable embedding parameters are model parameters", "statement": "The parameters of the nn.Module given to TrainableEmbedding appear in parameters() of the embedding and of the ProbMPS using it, so that they are trained jointly.", "quantifier": "all modules with at least one parameter", "why_tests_cant": "registration is a structural fact about attribute assignment for every module", "anchors": ["torchmps/embeddings.py:TrainableEmbedding.__init__", "torchmps/prob_mps.py:ProbMPS.__init__"]}
{"id": "C22", "title": "log_norm always reflects the current embedding", "statement": "For a model with an embedding, log_norm() equals the log normalization for the embedding function's current parameters, at any time, in any interleaving of forward, log_norm and parameter updates.", "quantifier": "all interleavings of calls and parameter updates", "why_tests_cant": "quantifies over call histories", "anchors": ["torchmps/embeddings.py:TrainableEmbedding.make_lambda", "torchmps/prob_mps.py:ProbMPS.log_norm"]}
{"id": "C23", "title": "Inputs of the wrong length are rejected", "statement": "A ProbMPS built for seq_len n raises an error on inputs of any other length instead of returning un-normalized values.", "quantifier": "all lengths m != n and all modes", "why_tests_cant": "all wrong lengths and all modes", "anchors": ["torchmps/prob_mps.py:ProbMPS.forward", "torchmps/mps_base.py:get_mat_slices", "torchmps/mps_base.py:slim_eval_fun"]}
{"id": "C24", "title": "shape_broadcast implements NumPy broadcasting", "statement": "shape_broadcast(shapes) succeeds exactly when the shapes are broadcastable under the NumPy rule (right-aligned, sizes equal or 1), returns the broadcast shape, and does not depend on the order of the list; otherwise it raises ValueError.", "quantifier": "all nonempty lists of shapes", "why_tests_cant": "all ranks and sizes, including zero sizes", "anchors": ["torchmps/utils2.py:shape_broadcast"]}
{"id": "C25", "title": "batch_broadcast only replicates along batch axes", "statement": "batch_broadcast returns tensors with the common broadcast batch shape followed by their own unchanged non-batch shape, each output entry equals the input entry at the projected batch index, and incompatible batch shapes raise ValueError.", "quantifier": "all lists of tensors and all numbers of non-batch axes", "why_tests_cant": "all ranks and broadcasts", "anchors": ["torchmps/utils2.py:batch_broadcast", "torchmps/utils2.py:batch_to"]}
{"id": "C26", "title": "phaseify only changes phases", "statement": "phaseify(t) has the same shape as t and |phaseify(t)_i| = |t_i| for every entry, for every outcome of the random generator.", "quantifier": "all tensors and all random outcomes", "why_tests_cant": "all random outcomes", "anchors": ["torchmps/utils2.py:phaseify"]}
{"id": "C27", "title": "floor2 returns the power of two below its argument", "statement": "For every positive x, floor2(x) is a power of two p with p <= x < 2p (equivalently, up to the documented wording, the bracketing power of two).", "quantifier": "all positive x", "why_tests_cant": "real-valued function over all positive x", "anchors": ["torchmps/utils2.py:floor2"]}
{"id": "C28", "title": "near_eye_init is the identity plus scaled noise", "statement": "near_eye_init(shape, noise) has every matrix slice equal to the identity plus noise/sqrt(rows*cols) times the standard normal sample (up to a phase in the complex case), so noise=0 gives exact identities; batches of non-square slices raise ValueError.", "quantifier": "all shapes, noise levels and random outcomes", "why_tests_cant": "all shapes and all random outcomes", "anchors": ["torchmps/mps_base.py:near_eye_init"]}
{"id": "C29", "title": "normal_init honours rel_std", "statement": "normal_init(shape, rel_std=s) returns entries with standard deviation s/bond_dim, i.e. s/bond_dim times the standard normal sample (documented meaning of rel_std).", "quantifier": "all shapes, all values of rel_std and all random outcomes", "why_tests_cant": "all values of the parameter", "anchors": ["torchmps/mps_base.py:normal_init"]}
{"id": "C30", "title": "MPS.forward computes the tensor-train contraction (open boundary)", "statement": "Whenever MPS.forward of a fixed-bond MPS with open boundary returns, each row of the result is out[b,o] = (prod_{s<label} M_s(x_bs) . O_o . prod_{s>=label} M_s(x_bs))[0,0] with M_s(v)=sum_i v_i A_s[:,:,i] + B, for every label_site; it returns (one row per input row) whenever no region has exactly one site and, for label_site=0, the last call had the same batch size.", "quantifier": "all input dims, label sites, bond/feature/output dims, parameters, batches, histories of earlier calls", "why_tests_cant": "all sizes and parameter values; several label sites take different code paths", "anchors": ["torchmps/torchmps.py:MPS.forward", "torchmps/torchmps.py:LinearRegion.forward", "torchmps/torchmps.py:InputRegion.forward", "torchmps/contractables.py:ContractableList.reduce"]}
{"id": "C31", "title": "MPS.forward computes the tensor-ring contraction (periodic boundary)", "statement": "With periodic_bc=True, whenever forward returns, each row is the trace over the bond space of the same ordered product.", "quantifier": "all sizes, label sites, parameters, batches, histories", "why_tests_cant": "all sizes and parameter values", "anchors": ["torchmps/torchmps.py:LinearRegion.forward", "torchmps/contractables.py:MatRegion.reduce"]}
{"id": "C32", "title": "MPS parallel_eval does not change the output", "statement": "MPS.forward with parallel_eval=True and with parallel_eval=False return the same output or raise the same exception.", "quantifier": "all models, inputs (also malformed) and histories of calls", "why_tests_cant": "equality of two contraction orders for all sizes", "anchors": ["torchmps/torchmps.py:LinearRegion.forward", "torchmps/contractables.py:ContractableList.reduce", "torchmps/contractables.py:MatRegion.reduce"]}
{"id": "C33", "title": "MPS output does not depend on earlier calls", "statement": "The output of MPS.forward and TI_MPS.forward is a function of the parameters and the input only: no earlier call on this or any other model can change it or make it fail.", "quantifier": "all call histories (all earlier batch sizes), all models and inputs", "why_tests_cant": "quantifies over call histories; the tests happen to reuse one batch size", "anchors": ["torchmps/contractables.py:Contractable.__init__", "torchmps/contractables.py:Contractable.global_bs", "torchmps/torchmps.py:OutputSite.forward", "torchmps/torchmps.py:MPS.forward"]}
{"id": "C34", "title": "Every accepted label_site gives a working model", "statement": "Every MPS whose constructor succeeds can be evaluated on a batch of the documented shape (no assertion failure), in particular for each label_site in 0..input_dim.", "quantifier": "all input_dim, label_site, configurations", "why_tests_cant": "all sizes; tests never use a region with a single site", "anchors": ["torchmps/torchmps.py:LinearRegion.forward", "torchmps/torchmps.py:InputRegion.forward"]}
{"id": "C35", "title": "path re-routes the input", "statement": "An MPS with path p evaluated on x gives the same output as the same MPS without path evaluated on the input whose s-th pixel is x[:, p[s]], for pre-embedded and raw inputs; the path may be longer or shorter than the input width as long as len(path)=input_dim.", "quantifier": "all paths and inputs", "why_tests_cant": "all index lists", "anchors": ["torchmps/torchmps.py:MPS.forward"]}
{"id": "C36", "title": "Feature maps embed pixel by pixel", "statement": "The default feature map sends x to (x, 1-x); a registered feature map f is applied to every pixel; registering the function x -> (x,1-x) changes nothing; pre-embedded 3-mode inputs are used as they are.", "quantifier": "all inputs, feature maps and models", "why_tests_cant": "all functions f and inputs", "anchors": ["torchmps/torchmps.py:MPS.embed_input", "torchmps/torchmps.py:MPS.register_feature_map", "torchmps/torchmps.py:TI_MPS.embed_input"]}
{"id": "C37", "title": "MPS output is affine in every site", "statement": "For fixed other sites, the MPS output is an affine function of the feature vector at any site (linear when use_bias=False), for open and periodic boundaries, whenever forward returns.", "quantifier": "all sites, models, inputs and scalars", "why_tests_cant": "algebraic law over all inputs", "anchors": ["torchmps/torchmps.py:MPS.forward"]}
{"id": "C38", "title": "TI_MPS.forward computes the uniform contraction", "statement": "TI_MPS maps a batch of feature sequences to init_vec . prod_s (sum_i v_i A[:,:,i] + B) . terminal_mat for every sequence length >= 1, serial or parallel.", "quantifier": "all lengths, dims, parameters, flags, batches", "why_tests_cant": "all lengths", "anchors": ["torchmps/torchmps.py:TI_MPS.forward", "torchmps/torchmps.py:InitialVector", "torchmps/torchmps.py:TerminalOutput"]}
{"id": "C39", "title": "Zero padding is neutral for variable-length inputs", "statement": "Calling TI_MPS (use_bias=fixed_bias=True) on a list of sequences of different lengths gives, for every sequence, the same output as evaluating that sequence alone without padding, for raw scalar sequences and for pre-embedded sequences.", "quantifier": "all lists of sequences, lengths and parameters", "why_tests_cant": "all length combinations", "anchors": ["torchmps/torchmps.py:TI_MPS.format_input", "torchmps/torchmps.py:TI_MPS.forward"]}
{"id": "C40", "title": "TI_MPS rejects ragged input it cannot pad", "statement": "When use_bias or fixed_bias is False, format_input raises ValueError exactly when the sequences of a well-formed list differ in length, and otherwise stacks them.", "quantifier": "all lists", "why_tests_cant": "all lists of lengths", "anchors": ["torchmps/torchmps.py:TI_MPS.format_input"]}
{"id": "C41", "title": "MatRegion.reduce and vector sweeps compute the ordered product", "statement": "MatRegion.reduce() returns the ordered product of its matrices for any number >= 1 of matrices; multiplying an edge vector from either side gives v.M_1...M_n or M_1...M_n.v.", "quantifier": "all numbers of matrices, sizes, batches", "why_tests_cant": "all odd/even patterns of the tree reduction", "anchors": ["torchmps/contractables.py:MatRegion.reduce", "torchmps/contractables.py:MatRegion.__mul__"]}
{"id": "C42", "title": "ContractableList.reduce respects the order despite its fallback", "statement": "For every chain edge vector, mats/mat regions, at most one output core, edge vector, reduce() (which retries from the left end on unsupported products) returns the contraction in list order, for both values of parallel_eval.", "quantifier": "all chains of any length", "why_tests_cant": "the try/except control flow depends on the position of the output core and on operand types", "anchors": ["torchmps/contractables.py:ContractableList.reduce", "torchmps/contractables.py:Contractable.__mul__"]}
{"id": "C43", "title": "Empty lists are rejected with ValueError", "statement": "ContractableList([]) and LinearRegion([]) raise ValueError as their error messages promise, and Scalar accepts a 0-dimensional tensor.", "quantifier": "the empty list and 0-dimensional tensors", "why_tests_cant": "guard written as an identity test on a fresh list, so no input can trigger it", "anchors": ["torchmps/contractables.py:ContractableList.__init__", "torchmps/torchmps.py:LinearRegion.__init__", "torchmps/contractables.py:Scalar.__init__"]}
{"id": "C44", "title": "Scalar multiplication scales every contractable", "statement": "Scalar * c returns a contractable of the class of c with tensor scaled batch-wise, for every contractable class.", "quantifier": "all contractable classes, tensors and scalars", "why_tests_cant": "all classes", "anchors": ["torchmps/contractables.py:Scalar.__mul__"]}
{"id": "C45", "title": "ContractableList supports multiplication by a contractable", "statement": "Multiplying a ContractableList by a contractable from either side multiplies it with all items in order.", "quantifier": "all lists and contractables", "why_tests_cant": "all lists", "anchors": ["torchmps/contractables.py:ContractableList.__mul__"]}
{"id": "C46", "title": "svd_flex splits a tensor along the requested partition", "statement": "Given a correct SVD, svd_flex returns left/right tensors with the index order of svd_string whose contraction over the new bond is the input truncated to the kept singular triples; when nothing above zero is cut the contraction reproduces the input exactly; sv_right only moves the singular values.", "quantifier": "all tensors, partitions, cutoffs, max_D, both sv_right", "why_tests_cant": "all shapes and index permutations", "anchors": ["torchmps/utils.py:svd_flex"]}
{"id": "C47", "title": "svd_flex keeps exactly the singular values above the cutoff", "statement": "The returned bond dimension is the number of the (at most max_D) singular values >= cutoff; it is between 1 and max_D; if it would be 0 a RuntimeError is raised; padded entries are zero; the squared Frobenius error is the sum of squares of the dropped singular values.", "quantifier": "all tensors, cutoffs and max_D", "why_tests_cant": "all spectra", "anchors": ["torchmps/utils.py:svd_flex"]}
{"id": "C48", "title": "Adaptive training never crashes on a merge flip", "statement": "For an adaptive MPS, no sequence of forward calls (any batch sizes, any parameter updates between calls with nonzero cores and singular values above the cutoff) fails: the merged module lists always match.", "quantifier": "all call schedules, input_dim, label_site", "why_tests_cant": "quantifies over schedules; tests use three geometries and 7 calls", "anchors": ["torchmps/torchmps.py:MergedLinearRegion._merge", "torchmps/torchmps.py:MergedLinearRegion._unmerge", "torchmps/torchmps.py:MergedLinearRegion.combine", "torchmps/torchmps.py:MergedLinearRegion.forward"]}
{"id": "C49", "title": "Adaptive models of every size can be constructed", "statement": "MPS(input_dim, ..., adaptive_mode=True) succeeds for every input_dim >= 1 and label_site in 0..input_dim.", "quantifier": "all sizes", "why_tests_cant": "all sizes", "anchors": ["torchmps/torchmps.py:MergedLinearRegion.__init__", "torchmps/torchmps.py:MergedLinearRegion._merge", "torchmps/torchmps.py:MPS.__init__"]}
{"id": "C50", "title": "Merging preserves the computed function", "statement": "The module list obtained by merging at either offset computes the same input-output map as the unmerged list.", "quantifier": "all module lists built by MPS, all parameters, inputs, offsets", "why_tests_cant": "all sizes and offsets", "anchors": ["torchmps/torchmps.py:InputRegion._merge", "torchmps/torchmps.py:MergedLinearRegion.combine", "torchmps/torchmps.py:MergedInput.forward", "torchmps/torchmps.py:MergedOutput.forward"]}
{"id": "C51", "title": "A merge flip without truncation preserves the computed function", "statement": "When no nonzero singular value is dropped, the flip (SVD split, norm equalization, re-merge at the other offset) leaves the input-output map of the adaptive MPS unchanged.", "quantifier": "all adaptive models, offsets, parameters with nonzero cores", "why_tests_cant": "all sizes and parameters", "anchors": ["torchmps/torchmps.py:MergedLinearRegion._unmerge", "torchmps/torchmps.py:MergedLinearRegion._merge", "torchmps/utils.py:svd_flex"]}
{"id": "C52", "title": "The flip schedule is exact", "statement": "After any sequence of batches, inputs seen = counter + merge_threshold * flips, at most one flip happens per call, a flip happens exactly when the counter has reached the threshold, and the active offset is the parity of the number of flips.", "quantifier": "all batch schedules and thresholds", "why_tests_cant": "quantifies over schedules", "anchors": ["torchmps/torchmps.py:MergedLinearRegion.forward"]}
{"id": "C53", "title": "bond_list and sv_list are updated at exactly the merged bonds", "statement": "A flip at offset o updates bond_list[i] and sv_list[i] exactly at the bonds between the cores that were merged, with the truncated rank and the padded spectrum of that bond, leaves the rest unchanged, and each bond_list entry stays between 1 and bond_dim; the lists keep length input_dim+2.", "quantifier": "all schedules, sizes, spectra", "why_tests_cant": "quantifies over schedules and sizes", "anchors": ["torchmps/torchmps.py:MPS.forward", "torchmps/torchmps.py:MergedLinearRegion._unmerge", "torchmps/torchmps.py:MergedInput._unmerge", "torchmps/torchmps.py:MergedOutput._unmerge"]}
{"id": "C54", "title": "Norm equalization preserves the product", "statement": "The rescaling of the split cores makes all core norms equal (to their geometric mean) and the product of the scale factors is one, provided no core is zero.", "quantifier": "all lists of nonzero cores", "why_tests_cant": "all lists", "anchors": ["torchmps/torchmps.py:MergedLinearRegion._unmerge", "torchmps/torchmps.py:InputRegion.rescale_norm"]}
{"id": "C55", "title": "Flips keep the parameter objects", "statement": "Parameter tensors of an adaptive MPS are updated in place: the number, kinds and shapes of the parameters of both merge states are the same after every sequence of calls (so that an optimizer stays valid).", "quantifier": "all schedules", "why_tests_cant": "quantifies over schedules", "anchors": ["torchmps/torchmps.py:MergedLinearRegion._merge"]}
{"id": "C56", "title": "init_tensor builds truncated identities plus noise", "statement": "init_tensor gives std times the noise for random_zero, identity (in the l,r indices) plus std*noise for random_eye, and identity truncated to min(init_dim, bond dims) plus noise for min_random_eye; other methods raise ValueError.", "quantifier": "all shapes, bond strings, methods, noise", "why_tests_cant": "all shapes and index orders", "anchors": ["torchmps/utils.py:init_tensor"]}
{"id": "C57", "title": "load_HV_data generates a balanced, correctly labelled data set", "statement": "For every length L >= 2 the generator produces 2(2^L-2) distinct images, each a constant-row (label 0) or constant-column (label 1) image that is not constant; half have each label; the test split has exactly a quarter of the images.", "quantifier": "all lengths and shuffles", "why_tests_cant": "exponentially many images", "anchors": ["torchmps/utils.py:load_HV_data"]}
{"id": "C58", "title": "joint_shuffle keeps data and labels aligned", "statement": "joint_shuffle returns a permutation of the data and applies the same permutation to the labels, for equally long inputs.", "quantifier": "all inputs and shuffle permutations", "why_tests_cant": "all permutations", "anchors": ["torchmps/utils.py:joint_shuffle", "torchmps/utils.py:onehot"]}
{"id": "C59", "title": "register_feature_map can be called repeatedly", "statement": "register_feature_map accepts, in any order and any number of times, plain functions, nn.Modules and None, the last call determines the embedding, and Module feature maps have their parameters included in parameters().", "quantifier": "all sequences of registrations", "why_tests_cant": "quantifies over histories of attribute assignments", "anchors": ["torchmps/torchmps.py:MPS.register_feature_map", "torchmps/torchmps.py:TI_MPS.register_feature_map"]}
{"id": "C60", "title": "path may be a list or a tensor", "statement": "MPS accepts path given as a list or as a torch.Tensor of any length (both pass its own type check).", "quantifier": "all paths", "why_tests_cant": "all lengths", "anchors": ["torchmps/torchmps.py:MPS.__init__", "torchmps/torchmps.py:MPS.forward"]}
{"id": "C61", "title": "init_mlp_embed builds the requested architecture", "statement": "init_mlp_embed(output_dim, num_layers, hidden_dims) builds num_layers linear layers with chained dimensions 1 -> hidden -> output_dim each followed by a sigmoid, accepts an int for hidden_dims, and rejects lists of the wrong length.", "quantifier": "all layer counts and dimension lists", "why_tests_cant": "all lengths", "anchors": ["torchmps/embeddings.py:init_mlp_embed"]}
{"id": "C62", "title": "DataDomain validates its range", "statement": "DataDomain accepts exactly continuous intervals with max_val > min_val and discrete domains with max_val >= 0, and stores the given values.", "quantifier": "all arguments", "why_tests_cant": "all arguments", "anchors": ["torchmps/embeddings.py:DataDomain"]}
{"id": "C63", "title": "Constructed models have the requested sizes", "statement": "ProbMPS and ProbUnifMPS accept exactly positive sizes and the methods near_eye and normal, build a model of the requested sizes with the given embedding, reject embeddings of another dimension and functions without domain, and report the sizes in seq_len, input_dim, bond_dim and use_bias.", "quantifier": "all sizes, options, embeddings and random draws", "why_tests_cant": "all sizes and draws", "anchors": ["torchmps/prob_mps.py:ProbMPS.__init__", "torchmps/prob_mps.py:ProbUnifMPS.__init__", "torchmps/prob_mps.py:ProbMPS.seq_len"]}
{"id": "C64", "title": "Boundary vectors start identical", "statement": "A new ProbMPS/ProbUnifMPS has equal left and right boundary vectors (source comment: 'Left and right vectors initialized to be identical, since it avoids issues with exponentially small overlap'), so their overlap cannot vanish.", "quantifier": "all draws, real and complex parameters", "why_tests_cant": "all draws", "anchors": ["torchmps/prob_mps.py:ProbMPS.__init__"]}
{"id": "C65", "title": "The bias starts neutral", "statement": "With the same random numbers, a new model with use_bias=True returns the same log probabilities as one with use_bias=False.", "quantifier": "all sizes, draws, inputs and evaluation modes", "why_tests_cant": "all inputs and draws", "anchors": ["torchmps/prob_mps.py:ProbMPS.__init__", "torchmps/prob_mps.py:ProbMPS.forward"]}
{"id": "C66", "title": "near_eye without noise is the uniform distribution", "statement": "A new real near_eye model whose noise is zero assigns log probability -n ln(input_dim) to every sequence of length n.", "quantifier": "all lengths, input and bond dimensions, edge draws, sequences and evaluation modes", "why_tests_cant": "all lengths and sequences", "anchors": ["torchmps/mps_base.py:near_eye_init", "torchmps/prob_mps.py:ProbMPS.forward"]}
{"id": "C67", "title": "Gauge invariance", "statement": "Inserting H G = 1 on the bonds of a model (also with rectangular G, H that enlarge the bond dimension) does not change the log probabilities, in any combination of evaluation modes.", "quantifier": "all models, gauge matrices, inputs and modes", "why_tests_cant": "all models and matrices", "anchors": ["torchmps/prob_mps.py:ProbMPS.forward", "torchmps/prob_mps.py:ProbUnifMPS.forward"]}
{"id": "C68", "title": "Scale invariance", "statement": "Multiplying the cores and boundary vectors by nonzero numbers does not change the log probabilities.", "quantifier": "all models, factors, inputs and modes", "why_tests_cant": "all models and factors", "anchors": ["torchmps/prob_mps.py:ProbMPS.forward", "torchmps/prob_mps.py:ProbMPS.log_norm"]}
{"id": "C69", "title": "A uniform model is a fixed-length model with equal cores", "statement": "ProbUnifMPS on inputs of length n returns the values of the ProbMPS of length n whose cores all equal its core.", "quantifier": "all models, lengths, inputs and modes", "why_tests_cant": "all lengths", "anchors": ["torchmps/prob_mps.py:ProbUnifMPS", "torchmps/prob_mps.py:ProbMPS"]}
{"id": "C70", "title": "Exact normalisation of every embedded model", "statement": "For every embedding, forward divides the squared amplitude of the embedded sequence by one fixed number: the sum (discrete domain) or trapezoid integral (interval) over all sequences if some off-diagonal entry of the embedding's Gram matrix exceeds 1e-8, and otherwise the sum over all letter sequences of the core weighted by the diagonal of the Gram matrix (averaged if it is constant up to tolerance). The probabilities therefore sum to exactly the ratio of the two.", "quantifier": "all embeddings, domains, models, inputs, lengths and modes", "why_tests_cant": "all embeddings and models; near-tolerance Gram matrices", "anchors": ["torchmps/embeddings.py:DataDomain", "torchmps/embeddings.py:FixedEmbedding.make_lambda", "torchmps/prob_mps.py:ProbMPS.forward", "torchmps/mps_base.py:get_log_norm"]}
{"id": "C71", "title": "An adaptive model always computes the contraction of its current cores", "statement": "Every forward call of an adaptive MPS that returns gives, for each row of the input, the contraction of the cores of the module list that is active after the call (entry (0,0) of the product for open, trace for periodic boundary conditions), whatever earlier calls, training steps, feature maps and whatever factors torch.svd returned. Before merge_threshold is reached the call returns, except for label_site=0 at offset 1, where the batch size remembered from the last call is broadcast with the current one.", "quantifier": "all adaptive models with at least two inputs, all histories, all inputs, all results of torch.svd, all remembered batch sizes", "why_tests_cant": "quantifies over histories and over the behaviour of torch.svd", "anchors": ["torchmps/torchmps.py:MPS.forward", "torchmps/torchmps.py:MergedLinearRegion.forward", "torchmps/torchmps.py:LinearRegion.forward", "torchmps/contractables.py:Contractable.__init__"]}
{"id": "C72", "title": "A call of an adaptive model that raises does not change what the model computes", "statement": "If a forward call of an adaptive MPS raises an exception that the caller catches (wrong input, failing contraction, failing flip), the model afterwards computes the same function as before: the active cores, offset, bond_list and sv_list are unchanged and later calls can succeed.", "quantifier": "all adaptive models with at least two inputs, all histories including caught exceptions, all inputs and all exceptions", "why_tests_cant": "quantifies over the points at which an exception can interrupt a flip and over all later calls", "anchors": ["torchmps/torchmps.py:MPS.forward", "torchmps/torchmps.py:MergedLinearRegion.forward", "torchmps/torchmps.py:MergedLinearRegion._merge", "torchmps/torchmps.py:MergedLinearRegion._unmerge"]}
{"id": "C73", "title": "Exact outcome of every call of an adaptive model", "statement": "For every adaptive MPS (at least two inputs, positive sizes and cutoff) and every history of training steps, feature maps and calls, including calls whose exception was caught: a call whose flip is not due, or whose flip is due and whose merged pairs can be split, has exactly this outcome. It raises AssertionError if a flip is due and either label_site=2 at offset 1, or two sites lie right of the output and offset+label_site is even. Otherwise it contracts at the new offset: with label_site=0 at offset 1 the remembered batch size is broadcast with that of the input (RuntimeError if that is impossible or nothing is remembered), in all other cases the output has one row per input row; the values are the contraction of the active cores.", "quantifier": "all adaptive models, histories, inputs and remembered batch sizes; torch.svd returns a decomposition with a value above the cutoff for each pair when a flip is due", "why_tests_cant": "quantifies over all histories and geometries", "anchors": ["torchmps/torchmps.py:MPS.forward", "torchmps/torchmps.py:MergedLinearRegion.forward", "torchmps/torchmps.py:MergedLinearRegion.combine", "torchmps/torchmps.py:LinearRegion.forward", "torchmps/contractables.py:Contractable.__init__"]}
{"id": "C74", "title": "Exact outcome of every call of a (non-adaptive) MPS", "statement": "For every MPS that the constructor accepts, any trained parameters, any input of the documented shape [B, input_dim, feature_dim] and any history of earlier calls: forward returns iff neither side of the output has exactly one site, the bond dimension is positive (open boundary), and, for label_site=0, a batch size is remembered and can be broadcast with B. It then returns the tensor-train (open) or tensor-ring (periodic) contraction for each row, with as many rows as the broadcast batch size; otherwise it raises the exception that the specification names.", "quantifier": "all models, parameters, inputs, remembered batch sizes; any commutative ring of scalars", "why_tests_cant": "all sizes, parameters and histories", "anchors": ["torchmps/torchmps.py:MPS.forward", "torchmps/torchmps.py:LinearRegion.forward", "torchmps/torchmps.py:InputRegion.forward", "torchmps/torchmps.py:OutputSite.forward", "torchmps/contractables.py:ContractableList.reduce"]}
{"id": "C75", "title": "slim_eval with a bias is refused", "statement": "A ProbMPS or ProbUnifMPS built with use_bias=True never returns a value when forward is called with slim_eval=True; without an embedding every well-formed input gets ValueError (no silent omission of the bias).", "quantifier": "all models with a bias, all inputs, parallel_eval on or off", "why_tests_cant": "all inputs", "anchors": ["torchmps/prob_mps.py:ProbMPS.forward", "torchmps/prob_mps.py:ProbUnifMPS.forward"]}
{"id": "C76", "title": "Mirror image", "statement": "If two models without embedding are mirror images (site t of one is the transpose of site n-1-t of the other, boundary vectors exchanged, bias transposed), they return the same log probabilities on a batch and on the batch with every sequence reversed.", "quantifier": "all sizes, parameters, batches, evaluation flags", "why_tests_cant": "all sizes and parameters", "anchors": ["torchmps/prob_mps.py:ProbMPS.forward", "torchmps/mps_base.py:get_log_norm", "torchmps/mps_base.py:contract_matseq"]}
{"id": "C77", "title": "Complex conjugation", "statement": "Conjugating all parameters of a (complex) model without embedding, and the feature vectors if the input is vectors, leaves the returned log probabilities unchanged.", "quantifier": "all sizes, parameters, batches, evaluation flags", "why_tests_cant": "all sizes and parameters", "anchors": ["torchmps/prob_mps.py:ProbMPS.forward", "torchmps/mps_base.py:get_log_norm"]}
{"id": "C78", "title": "Renaming of letters", "statement": "Renaming the letters at each site by a permutation of its own, in the model's cores and in the input alike, leaves the returned log probabilities unchanged (models without embedding).", "quantifier": "all permutations per site, sizes, parameters, batches, evaluation flags", "why_tests_cant": "all permutations, sizes and parameters", "anchors": ["torchmps/prob_mps.py:ProbMPS.forward", "torchmps/mps_base.py:get_mat_slices", "torchmps/mps_base.py:slim_eval_fun", "torchmps/mps_base.py:get_log_norm"]}
{"id": "C79", "title": "One-hot vectors mean letters", "statement": "A model without embedding returns the same log probabilities for a batch of integer sequences and for the batch of their one-hot vectors.", "quantifier": "all sizes, parameters, batches, evaluation flags", "why_tests_cant": "all inputs and parameters", "anchors": ["torchmps/mps_base.py:get_mat_slices", "torchmps/mps_base.py:slim_eval_fun", "torchmps/prob_mps.py:ProbMPS.forward"]}
{"id": "C80", "title": "Bond dimension 1 is a product distribution", "statement": "A model without embedding and with bond_dim=1 returns, for each row, the logarithm of the product over the sites of |w_t(x_t)|^2 / sum_k |w_t(k)|^2: the sites are independent. It returns whenever the letters of the batch and the boundary vectors have non-zero weights.", "quantifier": "all lengths, alphabet sizes, parameters, batches, flags", "why_tests_cant": "all sizes and parameters", "anchors": ["torchmps/prob_mps.py:ProbMPS.forward", "torchmps/prob_mps.py:ProbUnifMPS.forward", "torchmps/mps_base.py:get_log_norm"]}
{"id": "C81", "title": "The method log_norm", "statement": "For a model without embedding, log_norm() of a ProbMPS (log_norm(n) of a ProbUnifMPS) is the logarithm of the sum of |psi|^2 over all sequences of length n when that sum is positive, and is not finite or raises AssertionError when it is zero; what forward returns for a row plus log_norm is the logarithm of the squared amplitude of that row.", "quantifier": "all sizes, parameters, inputs, flags", "why_tests_cant": "all sizes and parameters", "anchors": ["torchmps/prob_mps.py:ProbMPS.log_norm", "torchmps/prob_mps.py:ProbUnifMPS.log_norm", "torchmps/mps_base.py:get_log_norm"]}
{"id": "C82", "title": "onehot returns unit vectors", "statement": "onehot(labels, max_value) returns a tensor of shape [len(labels), max_value]; for labels in 0..max_value-1 row i is the unit vector of label i and sums to 1. A label -k with 1 <= k <= max_value is read as max_value-k; any other label raises IndexError and a negative max_value RuntimeError.", "quantifier": "all lists of integer labels, all max_value", "why_tests_cant": "all label lists and class counts", "anchors": ["torchmps/utils.py:onehot"]}
{"id": "C83", "title": "Rows of a batch are independent (MPS, TI_MPS)", "statement": "Two calls of the same MPS (label_site > 0) or TI_MPS, with any batch sizes and any earlier calls, return equal output rows for rows with equal feature vectors: other rows of the batch have no influence, permuting the batch permutes the output.", "quantifier": "all models, parameters, batches, histories", "why_tests_cant": "all batches and parameters", "anchors": ["torchmps/torchmps.py:MPS.forward", "torchmps/torchmps.py:TI_MPS.forward"]}
{"id": "C84", "title": "MPS output is linear in every parameter tensor", "statement": "The output of an MPS is linear in the core of each site (affine if biases are used: for coefficients with sum 1) and in the output core; the output of a TI_MPS is linear in the initial vector and in the terminal matrix.", "quantifier": "all models, sites, coefficients, parameters, inputs, histories", "why_tests_cant": "all sizes, sites and parameters", "anchors": ["torchmps/torchmps.py:MPS.forward", "torchmps/torchmps.py:OutputSite.forward", "torchmps/torchmps.py:InputRegion.forward", "torchmps/torchmps.py:TI_MPS.forward"]}
{"id": "C85", "title": "Fresh models", "statement": "A fresh MPS has cores init_std*noise, biases equal to the identity and output cores equal to the identity plus init_std*noise. With init_std=0 every call that returns gives the same number for every input and every output: 1 with biases and open boundary, bond_dim with biases and periodic boundary, 0 without biases. Without biases one vanishing core makes every output 0, whatever the other cores are.", "quantifier": "all sizes, label sites, noise, inputs", "why_tests_cant": "all sizes and inputs", "anchors": ["torchmps/torchmps.py:MPS.__init__", "torchmps/torchmps.py:MPS.forward", "torchmps/utils.py:init_tensor"]}
{"id": "C86", "title": "Gauge invariance of MPS", "statement": "Inserting G_k on the left and H_(k+1) on the right of every tensor between bonds k and k+1, with H_t G_t = 1 on the inner bonds (and, at the ends, keeping entry (0,0) for an open boundary or H_(N+1) G_0 = 1 for a periodic one), does not change the outputs, also if the bond dimension changes.", "quantifier": "all sizes, gauges, parameters, inputs", "why_tests_cant": "all sizes and gauges", "anchors": ["torchmps/torchmps.py:MPS.forward"]}
{"id": "C87", "title": "Mirror image of an MPS", "statement": "A model whose sites are the transposed sites of another model in reverse order, with label_site counted from the other end and transposed output core, returns the same outputs on mirrored inputs.", "quantifier": "all sizes, parameters, inputs, interior label sites", "why_tests_cant": "all sizes and parameters", "anchors": ["torchmps/torchmps.py:MPS.forward"]}
{"id": "C88", "title": "Gauge invariance of TI_MPS", "statement": "Replacing core by G core H, init_vector by init_vector H and terminal_mat by G terminal_mat (and the bias by G bias H), where H G = 1, does not change the outputs of a TI_MPS, also if the bond dimension changes.", "quantifier": "all sizes, gauges, parameters, inputs, sequence lengths", "why_tests_cant": "all lengths and gauges", "anchors": ["torchmps/torchmps.py:TI_MPS.forward"]}
{"id": "C89", "title": "Exactly when a vanishing product gives NaN", "statement": "contract_matseq returns NaN in all entries of a batch element exactly when at least two factors are multiplied by the strategy in use and the product it rescales vanishes: the complete product including boundary vectors for the sequential strategy, the product of the matrices alone for the parallel strategy. In every other case all entries are finite and exact, in particular zeros are returned as zeros. slim_eval_fun returns NaN in a row exactly when the left boundary vector times all matrices of the row vanishes.", "quantifier": "all numbers of matrices, shapes, batch shapes, 0-2 boundary vectors, both strategies, stacked or listed matrices, all real or complex entries", "why_tests_cant": "all sizes and values; the exact location of the NaN region", "anchors": ["torchmps/mps_base.py:contract_matseq", "torchmps/mps_base.py:slim_eval_fun"]}
{"id": "C90", "title": "Exactly when a forward call of a probabilistic model raises", "statement": "For inputs of the right shape, ProbMPS.forward and ProbUnifMPS.forward return exactly when the normalisation constant is positive and no row of the batch has a vanishing product in the sense of C89; the values are then -inf for zero amplitudes and the finite log probability otherwise. In all other cases they raise AssertionError.", "quantifier": "all models with and without bias, with and without an embedding over a discrete domain, all batches, all combinations of slim_eval and parallel_eval (slim_eval with bias excluded)", "why_tests_cant": "all models, words and modes", "anchors": ["torchmps/prob_mps.py:ProbMPS.forward", "torchmps/prob_mps.py:ProbUnifMPS.forward"]}
{"id": "C91", "title": "What a probabilistic model does with every possible input tensor", "statement": "For any input tensor, of any number of modes, any sizes and any integer letters, ProbMPS.forward and ProbUnifMPS.forward either reject it with a determined exception (ValueError, IndexError, AssertionError or RuntimeError, depending on mode count, letter range, length, feature size, bias and slim_eval) or evaluate it exactly as follows: letters -d..d-1 count modulo d, short integer inputs use the first cores, a single feature vector is used at every site, size-1 feature axes are repeated; the result has one entry per row, ln(|amplitude|^2/Z) or -inf for zero amplitudes, and AssertionError is raised exactly if Z=0 or a row has a vanishing product in the sense of C89. For well-formed inputs the amplitudes are those of C08/C10. The one exception is slim_eval of empty sequences with ProbUnifMPS: a single one has probability 1 (AssertionError if the boundary vectors are orthogonal), any other number raises AssertionError.", "quantifier": "all models without embedding, with and without bias, all input tensors of integers or numbers, all combinations of slim_eval and parallel_eval", "why_tests_cant": "all shapes, letters and models", "anchors": ["torchmps/prob_mps.py:ProbMPS.forward", "torchmps/prob_mps.py:ProbUnifMPS.forward", "torchmps/mps_base.py:get_mat_slices", "torchmps/mps_base.py:slim_eval_fun"]}
{"id": "C92", "title": "train_script runs to the end and reports exact averages", "statement": "For every data set with valid labels, every optimiser that only changes parameter values and every order drawn by the samplers, train_script.py (fixed bond dimension) makes exactly num_train // batch_size updates per epoch, one per full batch, never sees an incomplete batch, prints as training accuracy the number of images whose label has the first largest score divided by the number of images used, and as loss the mean of the batch means of the cross entropy, each batch evaluated with the parameters before its own update. It raises ZeroDivisionError exactly if there are fewer training or test images than batch_size; all printed accuracies lie between 0 and 1.", "quantifier": "all data sets, numbers of pixels, classes, bond dimensions, boundary conditions, batch sizes, numbers of images and epochs, optimisers, sampler orders; working models in the sense of C34 with label_site > 0", "why_tests_cant": "all training histories, data orders and optimisers", "anchors": ["train_script.py"]}
{"id": "C93", "title": "Test accuracy is an exact fraction and independent of the data order", "statement": "A test epoch of train_script.py does not change the model, and the printed test accuracy is the number of test images whose label has the first largest score divided by the number of images used; if batch_size divides num_test this is the fraction over the whole test set, whatever the order drawn by the sampler, the batch composition and the previous calls.", "quantifier": "all trained models (working in the sense of C34, label_site > 0), data sets, batch sizes, orders and histories", "why_tests_cant": "all orders and batch compositions", "anchors": ["train_script.py", "torchmps/torchmps.py:MPS.forward"]}
{"id": "C94", "title": "What a probabilistic model with an embedding does with every input over its domain", "statement": "For every fixed or trainable embedding over a discrete domain or an interval and every input tensor (any number of modes, any sizes) with values in the domain, ProbMPS.forward and ProbUnifMPS.forward either raise a determined exception or return, for every row, ln(|amplitude|^2/Zn) or -inf, with Zn the normaliser of C70; they raise AssertionError otherwise, exactly if Zn=0 or a row is lost in the sense of C89. For batches of sequences, ProbUnifMPS accepts every length; ProbMPS of length n rejects other lengths (RuntimeError, AssertionError with slim_eval) except that without slim_eval length 1 is accepted and scored as the constant sequence of length n (and a model of length 1 accepts every length).", "quantifier": "all embeddings, models with and without bias, input tensors over the domain, combinations of slim_eval and parallel_eval", "why_tests_cant": "all shapes, values, embeddings and models", "anchors": ["torchmps/prob_mps.py:ProbMPS.forward", "torchmps/prob_mps.py:ProbUnifMPS.forward", "torchmps/embeddings.py:FixedEmbedding", "torchmps/embeddings.py:TrainableEmbedding", "torchmps/mps_base.py:get_mat_slices", "torchmps/mps_base.py:slim_eval_fun"]}
{"id": "C95", "title": "Rounding errors of the supervised models are bounded by the size of the contraction", "statement": "If MPS.forward (or TI_MPS.forward) is computed with additions, multiplications and subtractions whose results carry a relative error of at most u, it raises exactly the exception, and leaves the same remembered batch size, as the exact computation; and when it returns, every score differs from the exact score by at most ((1+u)^k - 1) times the magnitude: the same contraction with the absolute values of all parameters and features. For a model made by the constructor k = N(r + F + D + 3) + 2(D + 1) (N sites, F features, D bond dimension, r = 1 if raw inputs are embedded as (x, 1-x), else 0), and (1+u)^k - 1 <= ku/(1-ku). Round-to-nearest-even with p bits (24: float32, 53: float64) is such an arithmetic with u = 2^-p as long as nothing overflows or underflows.", "quantifier": "all models (any module list and shapes, any parameter values, paths, feature maps, boundary conditions, evaluation strategies), inputs, rounding functions of relative error at most u", "why_tests_cant": "error bounds hold for all parameter values, sizes and roundings; a test samples a few", "anchors": ["torchmps/torchmps.py:MPS.forward", "torchmps/torchmps.py:TI_MPS.forward", "torchmps/torchmps.py:LinearRegion.forward", "torchmps/contractables.py:MatRegion", "torchmps/contractables.py:ContractableList"]}
{"id": "C96", "title": "Whether a supervised model raises, and the shape it returns, depend on shapes only", "statement": "Two runs of MPS.forward (or TI_MPS.forward) on models with the same options and tensor shapes, inputs of the same shapes and feature maps returning the same shapes end in the same way: both raise the same exception or both return tensors of the same shape, and both leave the same remembered batch size, whatever the numbers (and whatever kind of numbers) are. In particular no training step can make an input fail that worked before, or conversely.", "quantifier": "all models whose tensors have the number of axes of their kind, all parameter and input values, all kinds of numbers", "why_tests_cant": "ranges over all values of parameters and inputs", "anchors": ["torchmps/torchmps.py:MPS.forward", "torchmps/torchmps.py:TI_MPS.forward", "torchmps/contractables.py:Contractable"]}
{"id": "C97", "title": "The supervised models commute with every homomorphism of the numbers", "statement": "If h preserves 0, 1, sums, differences and products (integers into reals, reals into complex numbers, complex conjugation, evaluation of polynomials), then applying h to all parameters and inputs of MPS.forward or TI_MPS.forward applies h to every score, and exceptions, shapes and the remembered batch size are the same.", "quantifier": "all models, inputs, homomorphisms", "why_tests_cant": "ranges over all homomorphisms and values", "anchors": ["torchmps/torchmps.py:MPS.forward", "torchmps/torchmps.py:TI_MPS.forward"]}
{"id": "C98", "title": "Scores are differentiable in parameters and inputs, and dual numbers give the derivative", "statement": "If parameters and inputs of MPS.forward or TI_MPS.forward depend on a real number t and have derivatives at t, then either every member of the family raises the same exception, or every member returns and every score is differentiable at t; its derivative is the one obtained by running forward once with each number replaced by the pair (value, derivative) under the rules of sums and products. So the training loss has a gradient wherever cross entropy has.", "quantifier": "all models without a registered feature map, all differentiable families of parameters and inputs", "why_tests_cant": "existence of derivatives quantifies over all directions and limits", "anchors": ["torchmps/torchmps.py:MPS.forward", "torchmps/torchmps.py:TI_MPS.forward", "train_script.py"]}
{"id": "C99", "title": "Nonnegative supervised models are monotone", "statement": "If all parameters and embedded features are >= 0, the scores of MPS.forward and TI_MPS.forward are >= 0, and increasing any of the parameters or features does not decrease any score.", "quantifier": "all models with parameters >= 0, all pairs of embedded inputs 0 <= x <= x'", "why_tests_cant": "ranges over all ordered pairs of models and inputs", "anchors": ["torchmps/torchmps.py:MPS.forward", "torchmps/torchmps.py:TI_MPS.forward"]}
{"id": "C100", "title": "train_script.py with adaptive_mode=True: exact numbers, one update per batch, flips on schedule, and only one way to fail", "statement": "With adaptive_mode=True and sizes whose flips can succeed (C48), for every data set with labels below output_dim, every optimiser that only changes parameter values, all sampler orders and batch sizes: an epoch of training makes one call and one update per full batch, and prints the mean over the batches of the mean cross entropy and the fraction of correctly classified images, each computed with the model right after the call's flip (if it flips) and before the update; an epoch of testing makes one call per full batch. After k calls the merge state has been flipped floor((k-1)*batch/merge_threshold) times. The script runs to its end, or stops at a batch before which a flip is due and at which torch.svd and the cutoff make a core vanish. With the script's constants such batches are numbers 20, 40, 60, ... only.", "quantifier": "all data sets, optimisers, sampler orders, sizes, numbers of epochs, torch.svd implementations", "why_tests_cant": "ranges over all optimiser behaviours, orders, histories and failure points", "anchors": ["train_script.py", "torchmps/torchmps.py:MPS.forward", "torchmps/torchmps.py:MergedLinearRegion.forward"]}
{"id": "C101", "title": "Evaluating an adaptive model on the test set does not change it", "statement": "The test loop of train_script.py (adaptive_mode=True) reports the accuracy of the model that training produced and leaves the model as it is. (False: every call of forward, also in evaluation, counts towards merge_threshold and may flip the merge state; with the script's constants the first test batch of the first epoch flips. True: if every flip that happens is lossless, the accuracy is the one of the model before the test loop and the scores are the same afterwards.)", "quantifier": "all data sets, orders, sizes, histories", "why_tests_cant": "ranges over all histories of the counter and all parameter values", "anchors": ["train_script.py", "torchmps/torchmps.py:MergedLinearRegion.forward"]}
{"id": "C102", "title": "init_mlp_embed is a perceptron of each number separately, and models using it are normalised densities", "statement": "For every architecture that init_mlp_embed accepts, all values of the weights and every input tensor: the embedded tensor has one more axis of size output_dim; the vector at a position is the perceptron (linear map, bias, logistic function, layer by layer) of the number at this position and of nothing else; every component lies strictly between 0 and 1. Integer tensors are always rejected, so a discrete data domain cannot be used. If the weights and biases of the last layer of two output components are not so large that their product drops below the tolerance of allclose (on [0,1]: absolute weights plus bias at most 8), everything an unbiased ProbMPS or ProbUnifMPS with this embedding returns is the logarithm of a density whose iterated trapezoid integral over the domain is 1; if moreover all cores and edge vectors are positive, the call never fails and every log density is finite.", "quantifier": "all architectures, weights, intervals, models, inputs inside the domain, evaluation modes", "why_tests_cant": "ranges over all trained weights and all real inputs", "anchors": ["torchmps/embeddings.py:init_mlp_embed", "torchmps/embeddings.py:TrainableEmbedding", "torchmps/prob_mps.py:ProbMPS.forward"]}
{"id": "C103", "title": "The log format keeps the returned numbers in range and reports the exact size of the product", "statement": "contract_matseq(..., log_format=True) and the slim evaluation, wherever their result is not NaN: log_scale is exactly the logarithm of the size of the exact product, and contraction is the exact product divided by that size. The size is the sum of the absolute values of the product of the matrices over the bond dimension (parallel strategy), of the complete product over the square root of its number of entries (sequential strategy), of the left vector times all matrices over the bond dimension (slim evaluation), and 1 when there is nothing to multiply. Hence however large or small the product is, the absolute values of contraction add up to the square root of its number of entries (sequential) or to the bond dimension (parallel without boundary vectors), and are at most bond dimension times the largest entries of the remaining boundary vectors otherwise; and multiplying every matrix by the same positive number c leaves contraction unchanged and adds (number of matrices) * ln c to log_scale.", "quantifier": "all matrix sequences, shapes, batch shapes, boundary vectors, strategies, real and complex numbers, all c > 0", "why_tests_cant": "ranges over all tensors and lengths; a test samples a few magnitudes", "anchors": ["torchmps/mps_base.py:contract_matseq", "torchmps/mps_base.py:mat_reduce_par", "torchmps/mps_base.py:mat_reduce_seq", "torchmps/mps_base.py:slim_eval_fun"]}
{"id": "C104", "title": "The densities of models on an interval integrate to 1 up to an explicit quadrature error", "statement": "A ProbMPS or ProbUnifMPS (real parameters, no bias) with an embedding over an interval [a,b] returns logarithms of a density on [a,b]^n. If the products of two components of the embedding have a second derivative of size at most M and are bounded by B, then the lambda matrix stored by make_lambda(num_points=N) differs from the exact integrals by at most e_N = M (b-a)^3 / (12 (N-1)^2), plus the tolerance 1e-8 + 1e-5 |entry| of torch.allclose; and the exact (Riemann) integral of the density over [a,b]^n differs from 1 by at most A^2 ((L + e)^n - L^n) / Z, where L = (b-a) B, A is the sum of the absolute amplitudes of all words of components, Z the normaliser and e = e_1000 plus the tolerance (e = e_1000 when an off-diagonal entry of the lambda matrix is visible above the tolerance). For sincos_embed on the unit interval: at most A^2 ((1 + pi^2 / (24 * 999^2))^n - 1) / Z.", "quantifier": "all models of any length and bond dimension, all twice continuously differentiable embeddings, intervals, batches of points, evaluation modes; all numbers of points N >= 2 for make_lambda", "why_tests_cant": "ranges over all embeddings and models, and an integral over [a,b]^n cannot be computed by sampling", "anchors": ["torchmps/embeddings.py:FixedEmbedding.make_lambda", "torchmps/embeddings.py:TrainableEmbedding.make_lambda", "torchmps/embeddings.py:trig_embed", "torchmps/prob_mps.py:ProbMPS.forward", "torchmps/prob_mps.py:ProbUnifMPS.forward"]}
{"id": "C105", "title": "The loss of a probabilistic MPS is at least the entropy of the data, with equality exactly for the empirical distribution", "statement": "For a ProbMPS or ProbUnifMPS without embedding and any batch of discrete sequences, the value returned by loss is +inf (when some sequence of the batch has probability 0) or a number that is at least the entropy -sum_w f(w) ln f(w) of the relative frequencies f of the sequences in the batch; it equals the entropy if and only if the model gives every sequence of the batch exactly its relative frequency. The bound is sharp: for every data set there are ProbMPS parameters (bond dimension = number of sequences) whose loss is exactly the entropy, in every evaluation mode.", "quantifier": "all parameters, lengths, bond and input dimensions, biases, batches (with any repetitions), evaluation modes", "why_tests_cant": "a lower bound over all parameters and all data sets; training only samples parameters", "anchors": ["torchmps/prob_mps.py:ProbMPS.loss", "torchmps/prob_mps.py:ProbMPS.forward", "torchmps/prob_mps.py:ProbUnifMPS.forward"]}
{"id": "C106", "title": "Log probabilities and loss are differentiable in all parameters wherever they are finite, and the score has mean zero", "statement": "For a ProbMPS or ProbUnifMPS with real parameters and without embedding, take parameters that give every row of the batch a non-zero amplitude (and Z > 0). Then in every direction of the parameter space (cores, edge vectors and bias together) forward keeps returning finite values for all small steps s, in every evaluation mode, and each value is differentiable at s = 0 with derivative 2 psi'(x_b)/psi(x_b) - Z'/Z, where psi' is given by the product rule over all factors and Z' = sum_w 2 psi(w) psi'(w); loss is differentiable with minus the mean of these. Whenever forward's values on a batch listing every sequence once are differentiable along a direction, their derivatives weighted with the probabilities sum to 0.", "quantifier": "all parameters, directions, lengths, dimensions, batches of discrete or vector inputs, evaluation modes", "why_tests_cant": "differentiability and the exact derivative at every point and direction; finite differences only sample", "anchors": ["torchmps/prob_mps.py:ProbMPS.forward", "torchmps/prob_mps.py:ProbMPS.loss", "torchmps/prob_mps.py:ProbUnifMPS.forward", "torchmps/mps_base.py:get_log_norm"]}
{"id": "C107", "title": "What a merge flip of an adaptive MPS that truncates does to the output", "statement": "Whenever a call of an adaptive MPS flips and returns (any history, any torch.svd that is correct on the merged pairs, every pair keeping a singular value), the output is that of the model's merged cores with every pair replaced by the sum of its leading singular triples, and nothing else is changed: single cores stay, the distance (Euclidean norm of all entries) of each new pair from the old one is exactly the norm of the dropped singular values, and its norm does not grow. Compared with the same call on the same model with a larger merge_threshold (which does not flip), no entry of the output moves by more than (sqrt(bond_dim) if periodic else 1) times the sum over the pairs i of (dropped norm of i times the product of the norms of the other pairs and cores) times the product of the norms of the feature vectors of the row. If only singular values below svd_cutoff do not fit into bond_dim, the dropped norms are at most svd_cutoff times the root of the number of singular values.", "quantifier": "all sizes, parameters, histories, inputs, batch sizes, cutoffs, thresholds and correct SVD routines", "why_tests_cant": "an error bound for every parameter value, input and history; tests sample a few", "anchors": ["torchmps/torchmps.py:MergedLinearRegion.forward", "torchmps/torchmps.py:MergedInput._unmerge", "torchmps/torchmps.py:MergedOutput._unmerge", "torchmps/utils.py:svd_flex", "torchmps/torchmps.py:MPS.forward"]}
{"id": "C108", "title": "Saving and loading parameters (state_dict / load_state_dict)", "statement": "load_state_dict of the state_dict of any trained model, into any other model built with the same constructor arguments (other random numbers, possibly trained too, same feature map or embedding), succeeds and gives a model that computes the same outputs as the saved one. (True of MPS without adaptive mode, TI_MPS, ProbMPS and ProbUnifMPS, where the loaded model is equal to the saved one; false of MPS with adaptive_mode: the merge offset is not saved, loading raises RuntimeError exactly when the offsets of the two models differ - for a new receiver: after every odd number of flips - although the parameters have been overwritten by then; with equal offsets the parameters are restored, but the counter of inputs, bond_list and sv_list stay the receiver's, and the next call returns the same output if both models are due to flip or neither is.) A checkpoint of a model that was built with other arguments is rejected with RuntimeError, except when only arguments differ that do not influence the parameters (periodic_bc, parallel_eval, path, standard deviations): then it is accepted, and the receiver keeps its own values of these.", "quantifier": "all constructor arguments, random numbers, parameter values, and for adaptive models all histories of both models and every torch.svd", "why_tests_cant": "for every pair of histories of the two models; a test loads a few checkpoints", "anchors": ["torchmps/torchmps.py:MergedLinearRegion.__init__", "torchmps/torchmps.py:MergedLinearRegion._merge", "torchmps/torchmps.py:InputRegion.__init__", "torchmps/torchmps.py:TI_MPS.__init__", "torchmps/torchmps.py:MPS.__init__", "torchmps/prob_mps.py:ProbMPS.__init__", "torchmps/prob_mps.py:ProbUnifMPS.__init__"]}
{"id": "C109", "title": "Adaptive models in every history: multilinear, row by row, independent of parallel_eval", "statement": "In every state an MPS with adaptive_mode=True can reach (training, calls with flips, calls that raised and were caught, feature maps), the output of a call is linear in the feature vector of each site, all other vectors being fixed - calls on three batches that differ at one site succeed together, flip together and leave the same state; each row of the output depends only on its own row of the input, not on the other rows, the batch size or previous calls' batch sizes; and parallel_eval=True and False give the same exceptions, the same output entries and the same new state.", "quantifier": "all constructor arguments, all histories, every torch.svd, all inputs, sites, coefficients, batch sizes and remembered batch sizes, exact real arithmetic", "why_tests_cant": "for every history of flips and training and every linear combination; a test compares a few calls", "anchors": ["torchmps/torchmps.py:MergedLinearRegion.forward", "torchmps/torchmps.py:LinearRegion.forward", "torchmps/torchmps.py:MPS.forward", "torchmps/torchmps.py:MergedInput.forward", "torchmps/torchmps.py:MergedOutput.forward"]}
{"id": "C110", "title": "Gradient of the training loss, and gradient descent", "statement": "For ProbMPS and ProbUnifMPS without embedding, on a batch of letters or of vectors whose sequences all have positive probability, the loss has a gradient with respect to all entries of the parameters (core tensor, boundary vectors, bias): near the current parameters the loss is finite along every line and its derivative is the sum of gradient entry times direction entry. The entries are the partial derivatives, so the gradient is unique. If it is not zero, every small enough step against it lowers the loss the model reports, by at least any fraction c < 1 of step length times squared norm. At parameters no others improve on, the gradient is zero. It has no component along the site matrices (with the bias) nor along either boundary vector.", "quantifier": "all parameters, biases, batches, sequence lengths, alphabets, bond dimensions, directions, fractions c, both evaluation orders and slim_eval without bias; exact real arithmetic", "why_tests_cant": "for every parameter value and direction, and a limit of step sizes; gradcheck compares finite differences at one point", "anchors": ["torchmps/prob_mps.py:ProbMPS.loss", "torchmps/prob_mps.py:ProbMPS.forward", "torchmps/prob_mps.py:ProbUnifMPS.loss", "torchmps/prob_mps.py:ProbMPS.log_norm"]}
{"id": "C111", "title": "Which distributions a bond dimension can represent", "statement": "Every probability distribution over words with at most D words of positive probability is that of a ProbMPS of bond_dim D, and of a ProbUnifMPS of bond_dim seq_len * D: with suitable parameters forward returns the logarithm of the probability of every word of a batch (-inf for 0), and raises only if some word of the batch has probability 0. Conversely no parameters carry more than bond_dim alternatives across a cut: if bond_dim + 1 first parts u_i and second parts v_i all have u_i v_i of positive probability, then some u_i v_j with i <> j has positive probability too. So no model of bond_dim D gives positive probability to exactly the constant words over more than D letters.", "quantifier": "all distributions, sequence lengths, alphabets, bond dimensions, cuts, words, parameters, biases, evaluation orders, real and complex parameters; exact arithmetic", "why_tests_cant": "existence over all parameters, and impossibility for all parameters", "anchors": ["torchmps/prob_mps.py:ProbMPS", "torchmps/prob_mps.py:ProbMPS.forward", "torchmps/prob_mps.py:ProbUnifMPS", "torchmps/prob_mps.py:ProbUnifMPS.forward"]}
{"id": "C112", "title": "Which functions the parameters of an MPS can express", "statement": "Whatever the sizes, the boundary condition, parallel_eval, use_bias and a working label_site, some values of the parameters of an MPS make forward return sum_p y[p,o] * prod_s (sum_i x[s,i] c[p,s,i]) with any chosen y and c and bond_dim terms, on every batch. So for any list of at most bond_dim distinct one-hot words and any chosen outputs there are parameters that give exactly these outputs on these words and 0 on every other word. Conversely, whatever the parameters, if bond_dim + 1 first parts and second parts (bond_dim^2 + 1 for periodic boundaries) give a nonzero output in each matching pair then some pair that does not match gives a nonzero output too; so with more letters than that no parameters give nonzero outputs on exactly the constant words.", "quantifier": "all sizes, boundary conditions, label sites that work, parameters, batches, batch sizes left by earlier calls, word lists, targets, cuts, samples; capacity over every commutative ring, the rank bound over the real or complex numbers; exact arithmetic", "why_tests_cant": "existence over all parameters for all targets, and impossibility for all parameters", "anchors": ["torchmps/torchmps.py:MPS", "torchmps/torchmps.py:MPS.__init__", "torchmps/torchmps.py:MPS.forward", "torchmps/torchmps.py:LinearRegion.forward", "torchmps/torchmps.py:InputRegion.forward"]}
{"id": "C113", "title": "Which functions the parameters of a TI_MPS can express", "statement": "A TI_MPS with trainable ends (fixed_ends=False) and bond_dim at least n times the number of words can be given parameters (without touching its bias, fixed or not) such that forward returns any chosen outputs on these distinct one-hot words of length n and 0 on every other word of length n. Conversely, whatever its parameters, if bond_dim + 1 first parts and second parts give a nonzero output in each matching pair then some pair that does not match gives a nonzero output too.", "quantifier": "all sizes, biases, evaluation orders, word lists, targets, batches, parameters, cuts, samples; exact arithmetic", "why_tests_cant": "existence over all parameters for all targets, and impossibility for all parameters", "anchors": ["torchmps/torchmps.py:TI_MPS", "torchmps/torchmps.py:TI_MPS.__init__", "torchmps/torchmps.py:TI_MPS.forward"]}
{"id": "C114", "title": "A larger bond dimension loses nothing", "statement": "For every MPS of bond dimension D, whatever its parameters, and every D' >= D, there are values of the parameters of the MPS of bond dimension D' (same input, output, feature dimension, boundary condition, label site, path and use_bias; parallel_eval and the initialisation may differ) such that on every input, embedded or not, in every order of calls, forward returns the same tensor and leaves the same state, or raises the same exception. The same holds for TI_MPS on every input that format_input accepts with at least one site or rejects, where fixed ends and a fixed bias keep their fixed values, and for ProbMPS and ProbUnifMPS, without embedding or with an embedding object over a discrete domain or an interval, in every evaluation mode: the same log probabilities (-inf included) or the same exception.", "quantifier": "all sizes D <= D', parameters, boundary conditions, label sites, paths, feature maps, inputs, batch sizes, batch sizes left by earlier calls, evaluation modes; exact arithmetic", "why_tests_cant": "existence over all parameters, with agreement on every input", "anchors": ["torchmps/torchmps.py:MPS.__init__", "torchmps/torchmps.py:MPS.forward", "torchmps/torchmps.py:TI_MPS.__init__", "torchmps/torchmps.py:TI_MPS.forward", "torchmps/torchmps.py:TI_MPS.format_input", "torchmps/prob_mps.py:ProbMPS.forward", "torchmps/prob_mps.py:ProbUnifMPS.forward", "torchmps/embeddings.py:FixedEmbedding"]}
{"id": "C115", "title": "Linear combinations of models are models", "statement": "For two MPS of bond dimensions D1 and D2 with the same input, output and feature dimension, boundary condition, label site, path and feature map, whatever their parameters, and any two coefficients a and b, there are values of the parameters of the MPS of bond dimension D1+D2 such that on every input, embedded or not, in every order of calls, forward returns a times the result of the first plus b times that of the second and leaves the same state, or raises the same exception. The same holds for TI_MPS with trainable ends. For ProbMPS and ProbUnifMPS without embedding there is a model of bond dimension D1+D2 whose forward gives, in every evaluation mode, the log probabilities of the superposition: ln(|a psi1(x) + b psi2(x)|^2 / Z) with Z the sum of |a psi1 + b psi2|^2 over all words, -inf where the amplitudes cancel, and an exception only if Z or the amplitude of some row is zero. With an embedding over a discrete domain or an interval the same model works: |a psi1 + b psi2|^2 is taken at the embedding vectors of the row, and Z is the weighted sum over the points that stand for the domain (or over the letters of the core, when the code's Lambda has no visible off-diagonal entry).", "quantifier": "all sizes, parameters of both models, coefficients, boundary conditions, label sites, inputs, batch sizes, earlier calls, evaluation modes; exact arithmetic (with open ends over a ring where 2 is invertible, such as the real and the complex numbers)", "why_tests_cant": "existence over all parameters, with agreement on every input", "anchors": ["torchmps/torchmps.py:MPS.__init__", "torchmps/torchmps.py:MPS.forward", "torchmps/torchmps.py:TI_MPS.__init__", "torchmps/torchmps.py:TI_MPS.forward", "torchmps/prob_mps.py:ProbMPS.forward", "torchmps/prob_mps.py:ProbUnifMPS.forward", "torchmps/embeddings.py:FixedEmbedding"]}
{"id": "C116", "title": "All models compute one contraction: TI_MPS, ProbMPS and ProbUnifMPS are periodic MPS", "statement": "On sequences of a fixed length N >= 2, every TI_MPS is a periodic MPS: there are values of the parameters of the MPS with periodic boundary conditions, label_site = N and the same bond, output and feature dimension such that forward of both returns the same tensor and leaves the same state, or raises the same exception, on every batch of N feature vectors or of N raw numbers. For every ProbMPS or ProbUnifMPS without embedding there is such an MPS with output dimension 1 that scores words (as one-hot vectors) and vectors so that in every evaluation mode the log probability is ln(|score(x)|^2 / sum over all words w of |score(w)|^2), -inf for score 0, and forward raises only if that sum or the score of some row is 0.", "quantifier": "all sizes with N >= 2, parameters of the given model, biases, fixed or free ends, inputs, batch sizes, earlier calls, evaluation modes; exact arithmetic", "why_tests_cant": "existence of parameters with agreement on every input, between four separately written code paths", "anchors": ["torchmps/torchmps.py:MPS.forward", "torchmps/torchmps.py:LinearRegion.forward", "torchmps/torchmps.py:TI_MPS.forward", "torchmps/prob_mps.py:ProbMPS.forward", "torchmps/prob_mps.py:ProbUnifMPS.forward"]}
{"id": "C117", "title": "The product of two models is a model whose bond dimension is the product", "statement": "For any two trained MPS models of bond dimensions D1 and D2 that agree in the other sizes, boundary conditions and label site, the MPS of bond dimension D1*D2 has parameter values such that on every batch of one-hot sequences (words) forward returns the entrywise product of the two outputs and leaves the same state, and raises the same exception when forward of the first raises. For any two ProbMPS (or two ProbUnifMPS) without embedding there is one of bond dimension D1*D2, without bias, whose log probability of every word is the sum of the two log probabilities minus ln of the overlap, where overlap = sum over all words of P1(w)*P2(w), and -inf if one of the two is -inf; it raises only an AssertionError, and only if the overlap is 0 or one of the two models gives -inf on some row.", "quantifier": "all sizes, all parameters and biases of the two models, per model its own seed, std, bias and evaluation flags, all batches of words, all earlier calls; exact arithmetic", "why_tests_cant": "existence of parameters with agreement on every word", "anchors": ["torchmps/torchmps.py:MPS.forward", "torchmps/torchmps.py:InputSite.forward", "torchmps/torchmps.py:OutputSite.forward", "torchmps/prob_mps.py:ProbMPS.forward", "torchmps/prob_mps.py:ProbUnifMPS.forward"]}
{"id": "C118", "title": "Robustness: how far the scores can move when parameters and inputs move", "statement": "Let m be an MPS or TI_MPS without registered feature map, of any shape (adaptive or not, any path), and x an embedded input. If every parameter a is replaced by some a' with |a' - a| <= beta(a), and every input entry v by some v' with |v' - v| <= gamma(v), then forward of the changed model on the changed input raises exactly when the original does, with the same exception and the same remembered batch size, and otherwise returns a tensor of the same shape whose every entry differs by at most V - A, where A is forward of the model of the absolute values on |x|, and V is forward of the model with |a| + beta(a) in place of every a on the input with |v| + gamma(v). The difference tends to 0 with the size of the changes: for every eta > 0 there is delta > 0 such that no change of all numbers by at most delta moves an entry by more than eta. Consequently a gap between two scores that exceeds the sum of their two margins V - A survives every admissible change (quantised parameters, perturbed inputs).", "quantifier": "all models with well-formed parameter shapes, all margins beta and gamma (absolute, relative or per value), all perturbed models and inputs within the margins, all earlier calls; exact real arithmetic", "why_tests_cant": "a bound over the infinite set of all admissible perturbations at once; existence of delta", "anchors": ["torchmps/torchmps.py:MPS.forward", "torchmps/torchmps.py:TI_MPS.forward", "torchmps/torchmps.py:LinearRegion.forward", "torchmps/contractables.py:ContractableList.reduce"]}
{"id": "C119", "title": "Log probabilities and the training loss depend continuously on parameters and inputs", "statement": "Let a ProbMPS or ProbUnifMPS of any shape return log probabilities on a batch (in any evaluation mode, without embedding or with an embedding over a discrete domain or an interval). Then for every eps > 0 and every bound B there is delta > 0 such that every model of the same shapes whose parameters all differ by less than delta, on an input that is the same or (feature vectors without embedding) differs by less than delta in every entry, also returns, without exception, and each finite log probability differs by less than eps, while each -inf stays -inf or becomes a number below B. If all log probabilities are finite, loss returns for all those models and differs by less than eps. So an optimiser step that is small enough can neither make a working batch raise nor make its loss jump, including through the rescaling inside contract_matseq and slim_eval and through get_log_norm.", "quantifier": "all models, real or complex, all batches on which forward returns, all eps and bounds, all changed models and inputs within delta; exact arithmetic", "why_tests_cant": "existence of delta for every eps, and a claim about the infinite set of neighbouring models", "anchors": ["torchmps/prob_mps.py:ProbMPS.forward", "torchmps/prob_mps.py:ProbUnifMPS.forward", "torchmps/prob_mps.py:ProbMPS.loss", "torchmps/mps_base.py:get_log_norm", "torchmps/mps_base.py:contract_matseq", "torchmps/mps_base.py:slim_eval_fun"]}
