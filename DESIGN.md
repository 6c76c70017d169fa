# A formal model of TorchMPS in Rocq (Coq 8.16.1)

`properties.jsonl` lists the properties, `MANIFEST.json` the theorems that settle them, `rocq/theories`
holds the model and the proofs, `seeded/LOG.jsonl` the wrong programs the theorems were tested against.
Build: `cd rocq && coq_makefile -f _CoqProject -o Makefile && make -j4` (a few minutes).

## 1. How the code is modelled

The model is a set of total Gallina functions that mirror the Python source function by function; every
definition cites the lines it transcribes.

* **Tensors** are a shape plus an indexing function (`Tensor.v`).  The torch primitives (matmul, einsum with
  its subscript *strings*, indexing, expand, cat, stack, view, permute, ...) are defined once, with their shape
  checks and broadcasting, and raise the exception torch raises.  The Python code is transcribed on top of
  them: the einsum strings, the bond strings of contractables and the slicing arithmetic in the model are
  those of the code.
* **Exceptions** are values (`Err AssertionError`, ...); the order in which checks are made is the code's.
* **State.** `Contractable.global_bs` is threaded through every contraction (`M` monad in `Contractables.v`),
  so a theorem for every `g : option nat` is a theorem for every history of earlier calls of any model.
  Adaptive models are state machines (`Adaptive.v`): a call returns the new module list, bond and
  singular-value lists, offset and counter.  Embedded probabilistic models carry their stored `lamb_mat`.
  `nn.Module` registration (`NnModule.v`) is a map of attributes, parameters and sub-modules; state_dict and
  load_state_dict (`StateDict.v`) work on the list of keys of an object.
* **Arithmetic is exact.**  An arbitrary commutative ring for contractables, MPS, TI_MPS (there is no division
  in them); the reals for SVD and norms; for the probabilistic code either the reals or the complex
  numbers (`num`), where a tensor entry is a number or "not finite" and every real register is a number,
  +inf, -inf or NaN with the IEEE rules for log 0, x/0, inf - inf and NaN propagation.  So the `isfinite`
  assertions and the behaviour of the rescaling loops on zero products are part of the model.
* **Oracles.**  Random tensors are arguments (theorems hold for any noise), `np.random.shuffle` is an arbitrary
  permutation that depends on seed and length, `torch.svd` is an argument with the contract "orthonormal
  columns, non-negative non-increasing singular values, product equals the matrix" as a hypothesis of the
  theorems that need it, feature maps and embedding functions are arbitrary functions.

## 2. Trusted base

1. Coq's kernel (8.16.1) and the standard library.
2. Axioms.  None of our own; `Print Assumptions` is run at the end of the `P_*.v` files, and section 6
   lists its answer for every theorem of the manifest.  Four axioms occur, all from Coq's own standard library:
   `ClassicalDedekindReals.sig_forall_dec`, `ClassicalDedekindReals.sig_not_dec`,
   `FunctionalExtensionality.functional_extensionality_dep` (the construction of the reals) and
   `Classical_Prop.classic` (pulled in by the library's analysis: logarithms, square roots).
   The theorems about contractables, MPS, TI_MPS, shapes, nn.Module and data utilities need none.
3. The transcription itself: that the definitions in `Base, Scalars, Tensor, Utils, Utils2, MpsBase, ProbMps,
   ProbInit, Embeddings, Contractables, TorchMps, Adaptive, NnModule, StateDict, TrainScript` say what Python and torch do.  The
   repository could not be run here; the semantics of torch functions is taken from their documentation.
4. The specification files `Spec, MatSpec, ModelSpec, EmbSpec, ContrSpec, TmSpec, UtilsSpec, AdSpec, InputSpec, TrainSpec, FloatSpec, TrainAdSpec` (about
   600 lines) and the definitions at the head of the `P_*.v` files, which is what a reader has to read to
   understand a theorem.

### Modelled code

| source | modelled in | not modelled |
|---|---|---|
| contractables.py (all classes) | Contractables.v | nothing |
| torchmps.py TI_MPS, MPS, LinearRegion, InputRegion, OutputSite, InputSite, InitialVector, TerminalOutput | TorchMps.v | autograd, `to(device)` |
| torchmps.py MergedLinearRegion, MergedInput, MergedOutput, `_merge`, `_unmerge`, `combine`, norms; the state left by an exception in the middle of a flip | Adaptive.v, Crash.v | parameters that have become NaN (zero cores in a flip) |
| utils.py svd_flex, init_tensor, onehot, joint_shuffle, load_HV_data | Utils.v | complex tensors in svd_flex (`torch.t` without conjugation: the code does not support them) |
| utils2.py (all functions) | Utils2.v | `CIndex` beyond plain indexing |
| mps_base.py slim_eval_fun, contract_matseq, mat_reduce_par, mat_reduce_seq, get_mat_slices, get_log_norm, near_eye_init, normal_init | MpsBase.v | `pad_mat_slices` (raises NotImplementedError) |
| prob_mps.py ProbMPS, ProbUnifMPS | ProbMps.v, ProbInit.v | |
| embeddings.py DataDomain, FixedEmbedding, TrainableEmbedding, onehot_embed, trig_embed, init_mlp_embed | Embeddings.v, NnModule.v, Mlp.v | random initial weights of the MLP (arbitrary) |
| register_feature_map, parameter registration | NnModule.v | buffers, hooks |
| state_dict, load_state_dict of the models (torch.nn.Module) | StateDict.v | strict=False, sharing of memory between a state_dict and its model, embeddings and feature maps that are nn.Modules themselves |
| train_script.py (both values of adaptive_mode) | TrainScript.v, TrainAd.v | printed text, timer, data files; the optimiser is an arbitrary function |
| setup.py, tests | | not modelled |

### Simplifications (each is repeated in a comment where it applies)

Rounding (except C95), overflow and underflow; dtypes other than real/complex/integer (float32 padding by `torch.zeros`,
the dtype clash of a real lambda matrix with complex cores); devices; views are copies, except that the
in-place rescaling of cores that were sliced out of a region is tracked (`stale` in Adaptive.v); `np.int`
(removed from new NumPy) and indexing by a list of slices are taken with their old meaning; thresholds of the
adaptive schedule are integers; `input_dim = 0` of adaptive models; ambiguous svd strings; truthiness of
empty tensors.

## 3. Files

| files | content |
|---|---|
| Base, Scalars, Tensor | error monad; rings, finite sums, numbers with inf/NaN; tensors and torch primitives |
| Utils2, MpsBase, ProbMps, ProbInit, Embeddings | model of the probabilistic code |
| Contractables, Utils, TorchMps, Adaptive, Crash, NnModule, StateDict, TrainScript | model of the MPS classifier code |
| Spec, MatSpec, ModelSpec, EmbSpec, ContrSpec, TmSpec, UtilsSpec, AdSpec, InputSpec, TrainSpec, FloatSpec, TrainAdSpec | specifications |
| LinAlg, EinsumProofs, *Proofs, MatTop, MatFinal, LogNorm, ContrReduce, TmFinal, TmStale, SvdFinal, Ad* | lemmas |
| P_*.v | the property theorems, examples that meet their hypotheses, Print Assumptions |

Naming: `Cnn_...`; `_refuted`: the English claim is false of the code and this theorem proves it;
`_partial`: the strongest part of the claim that is true.  A claim is `proved` in the manifest only if its
whole statement is.

## 4. Properties: what is modelled and how it is proved

* **C01-C05** contract_matseq, get_mat_slices, slim_eval_fun: invariant `product * exp(log_scale) = exact partial
  product`; the tree reduction by strong induction on the number of matrices; arbitrary batch shapes.
  C03 (zero products) is false: 0/0 = NaN; proved: never a wrong finite value.
* **C06, C07** get_log_norm: invariant `d_mat * exp(l_norm) = sum over all prefixes of v v^dagger`; positivity.
* **C08-C15, C23, C63-C69** ProbMPS/ProbUnifMPS: `forward` is characterised exactly per row; normalisation is a
  finite sum over all words by induction on the length; C11, C13 (with embeddings), C14, C23, C63 (seq_len of
  ProbUnifMPS), C64 (complex parameters) are false in the stated generality and refuted by concrete models.
  C67/C68: gauge and scale changes of the cores, by telescoping.
* **C16-C22** embeddings: lambda = weighted sum of rank-one matrices; the `allclose` simplification is modelled
  with its tolerances; iterated sums over the grid; C22 is a state machine over all interleavings; C20 by
  the binomial theorem; C21/C59/C61 in the nn.Module model.
* **C24-C29, C56-C58, C62** utilities: induction on reversed shapes against the NumPy rule; pointwise
  computation; permutations.
* **C30-C37, C60** MPS: `mods_forward` produces a typed chain of contractables whose product is the specified list
  of matrices; `ContractableList.reduce` is proved to multiply a typed chain in order whatever its fallbacks do;
  regions that begin with the output core are treated for any global batch size (TmStale.v), which gives
  the exact outcome of every call in every history (`C33_exact_outcome`, `C34_works_iff`).
* **C38-C40** TI_MPS: the same with one repeated core; padding.
* **C41-C45** contractables: einsum strings evaluated symbolically; products, scalars, reduction order.
* **C45, C49, C56, C60, exact** (P_InitExact.v, P_CtorExact.v): the outcome (value or exception) for every argument.
* **C46, C47** svd_flex: SVD contract as a hypothesis; permutation/reshape of indices inverted; rank count,
  padding, Frobenius error.
* **C48-C55** adaptive mode: an invariant on module lists (alternating kinds, sizes), preserved by merge and
  unmerge; products of the unmerged cores equal the merged core (without truncation); norm equalisation with
  real logarithms and exponentials; schedule by induction on the number of calls.
* **C70** the number that embedded models divide by, exactly, for every embedding, also where `allclose` drops entries.
* **C71, C73, C74** exact outcomes: for every history (for adaptive models also with caught exceptions) and every
  remembered batch size, which exception a call raises or which rows and values it returns.
* **C72** exception safety of adaptive models: Crash.v gives the state that an exception leaves behind; the invariant
  is preserved by it (AdCrash.v).
* **C75-C81** consequences of the Born rule (P_Sym2.v): each is proved from the exact description of `forward` by a
  relation between two models (mirror image, conjugate, renamed letters, one-hot input); the sum over all words is
  re-indexed by a bijection of words.  C80: the amplitude is a product of numbers; the sum factorises.
* **C82** onehot: the loop of indexed assignments, by induction over the labels.
* **C83-C88** relations between two calls of MPS / TI_MPS models (P_MpsSym.v, P_MpsSym2.v, P_TiSym.v), from the exact
  outcome of a call (C74, C38) and lemmas about products of n matrices (linearity in one factor, transposition,
  telescoping H_t G_t).
* **C89-C90** exact counterparts of C03 and C11 (P_ZeroExact.v): the reduction proofs carry a per-batch-element
  predicate `exactly` (either all entries finite with the exact value, or the rescaled product is zero and all entries are
  NaN); the set of lost rows is defined in MatSpec.nan_case and ModelSpec.row_lost from exact products only.
* **C91** exact counterpart of C23 (InputSpec.v, P_AnyInput.v): `rejection` gives the exception for every input tensor,
  `used_amp` the amplitude of an accepted row under Python index wrap-around and torch broadcasting; proved from the
  general broadcasting einsum, the gather lemmas and `mats_ok` (everything after matrix selection).
* **C92-C93** train_script.py (TrainScript.v, TrainSpec.v, P_Train.v): the DataLoader's batch sampler, argmax, cross
  entropy, running totals and divisions are modelled; data, optimiser and sampler order are parameters.  Induction over
  the batches and epochs, on top of the exact outcome of a forward call (C34, C36).
* **C94** (P_AnyEmb.v) combines C91's amplitudes with the normaliser of C70 for embedded inputs of any shape; empty
  sequences under slim_eval (where the loop body never runs and the batch axis is lost) are a separate theorem.
* **C95-C99** one parametricity theorem (Param.v, EinStr.v, ParamMul.v, ParamRed.v, ParamFwd.v, ParamMps.v): the forward
  passes of TorchMps.v are written over arbitrary operations `sops`, and for every family of relations R_k between two
  kinds of numbers that is closed under sums (R_j, R_k -> R_(max j k + 1)) and products (R_j, R_k -> R_(j+k+1)) related
  models and inputs give the same exception or related results, with an explicit grade.  Instances: (exact value,
  magnitude) against rounded value with |x' - x| <= ((1+u)^k - 1)|magnitude| (C95, Float.v, P_Float.v, P_FloatEx.v with
  Flocq's rounding), the full relation (C96), the graph of a homomorphism (C97), functions against dual numbers (C98),
  0 <= x <= y (C99) (P_Free.v).
* **C100-C101** train_script.py with adaptive_mode=True (TrainAd.v, TrainAdSpec.v, P_TrainAd.v): the loops of TrainScript.v
  around Adaptive.v.  Induction over the batches with the invariant "reached k": the model has a history of k calls and
  training steps (C52's run), from which C71 gives the scores and C48 the only possible failure.  P_AdUnit.v: models of every
  size for which all flips are healthy and lossless (non-vacuity).
* **C102** the perceptron of init_mlp_embed (Mlp.v, P_Mlp.v): nn.Linear, nn.Sigmoid, nn.Sequential as functions of tensors
  and weights; the specification `activation` is the textbook recursion.  Density by C17's theorem; its hypothesis
  "lossless" is derived from a bound on the last layer (sigmoid values are bounded below), positivity by induction on the chain.
* **C103** the rescaling of contract_matseq and slim_eval_fun (Stable.v, Stable2.v, P_Stable.v): the last iteration of each
  loop divides by the size of its result, so a finite result has a known size; with C89 (exactness) this determines both
  outputs.  The triangle inequality for `numfield` is derived from multiplicativity (NabsTri.v).
* **C104** (Quad.v, P_Quad.v): the classical error of the trapezoid rule, by integrating (q' f - q f')' = f - q f'' with
  q(t) = (t-u)(t-v)/2 on every cell; the Born density is a finite sum of products of functions of one variable, so its
  iterated integral and the normaliser are the same polynomial in the exact and in the used lambda matrix.  Uses
  Coquelicot's `is_RInt`, `is_derive` (no axioms beyond those of the standard library's reals).
* **C105** (P_Gibbs.v): Gibbs' inequality (ln t <= t - 1) for the distribution of C09/C10 against the frequencies of the
  rows (`count_occ`); the bound is attained by an explicit model with diagonal cores, one bond index per row.
* **C106** (P_Grad.v): Coquelicot's `is_derive` along theta + s delta; the derivative of a chain of matrices by induction
  (product rule), of Z as a finite sum, of ln(psi^2/Z); non-zero amplitudes stay non-zero nearby, so C08/C10 apply there.
  The score identity differentiates sum_x p(x) = 1 (C09).  That PyTorch's autograd computes these derivatives is trusted, not
  modelled.
* **C107** (FrobNorm.v, P_Trunc.v, P_TruncEx.v): the flip lemma of AdExact.v gives the new cores up to equivalence as the truncated
  pairs; their distance is computed from orthonormality of the singular vectors; Frobenius norms are submultiplicative, so the
  product of the matrices moves by at most the first-order sum (telescoping, both lists being bounded by the old norms).
  P_TruncEx.v has a periodic model in which every pair loses the singular value 1/20.
* **C108** (StateDict.v, StateProofs.v, P_State.v, P_StateStrict.v): a model object is its list of keys in the order PyTorch visits them, each naming
  a parameter (two keys can name the same one: module_list is module_list_0 or module_list_1); load_state_dict is a fold over
  it that copies matching entries and remembers missing, unexpected and misshapen ones.  Equality of the loaded model by
  uniqueness of the keys; for adaptive models the first module is a pair at offset 0 and a single core at offset 1, so
  that its shapes never match, while the entries of module_list_0 and module_list_1 always do (invariant of AdState.v).
  P_StateStrict.v: a successful load means equal key sets and shapes, and these determine the dimensions, the label site
  and use_bias (models with other arguments).
* **C109** (P_AdLin.v): the product of core matrices of C71 is linear in the vector of one site (the pair containing it, found by
  halving the position) and depends on the vectors of its own sites only; a step of the merged region does not depend on the
  data, only on the size of the batch, and its active cores not even on that.
* **C110** (P_Descent.v): the derivative of C106 is linear in the direction (the product rule is linear in each replaced factor) and
  depends only on the entries the model has, so it is the product with a vector of partial derivatives; the first-order bound
  comes from the definition of the derivative. Moving the site matrices or a boundary vector in its own direction multiplies
  all amplitudes alike, so those slopes cancel.
* **C111** (P_Capacity.v): diagonal site matrices remember one word per bond index; with one core for all sites the bond also
  counts the position. Across a cut the amplitude matrix is a product with bond_dim columns; bond_dim + 1 rows are linearly
  dependent (elimination, by induction), so it cannot be diagonal.
* **C112** (P_MpsCap.v): diagonal cores with one bond index for each term; the first factor of an open chain is a row and the
  last a column, wherever the output core stands. The bound: the value of a joined sample is a row times a column of bond_dim
  (squared for a trace) entries, and C111's elimination lemma.
* **C113** (P_TiCap.v): as C111 for one core for all sites; the bias is subtracted from the core, which is exact on one-hot
  inputs.
* **C114** (P_Larger.v): padding with zeros. A product of factors whose first block row is (M, 0) has that block row again, so the
  contraction with padded ends, or the trace, is unchanged; a fixed bias or fixed ends stay as they are because the padded
  factors are block diagonal. The outcome of each call is then compared through the exact characterisations of C31, C38, C90.
* **C115** (P_Super.v): direct sums. Products of block diagonal factors are block diagonal, so traces and sandwiches add up; the
  coefficients go into the output tensor or the right end. An open MPS reads only the entry (0, 0) of the product, which a direct sum
  would leave to the first model: the factors are conjugated by an integer change of basis mixing the first coordinates of the two
  blocks, after which that entry is 2 A(0,0) - B(0,0). The outcome of each call is then compared through C31, C38 and C90.
  With an embedding (P_EmbSuper.v, also for C114) the two normalisers of C70/C90 are compared term by term: padding leaves, and a direct
  sum adds, the amplitudes at every word of domain points and at every word of letters.
* **C116** (P_Bridge.v): the trace of a matrix product closed with the outer product of the two boundary vectors is the product between
  the boundary vectors. With label_site = N there is one region, so one bias suffices. Both sides are compared through their exact
  characterisations (C31, C38, C90).
* **C117** (P_Product.v): on one-hot vectors every site matrix is one slice plus bias, so a product of models is realised by Kronecker
  products of slices, output matrices and boundary vectors (mixed-product rule along the chain). For the probabilistic models the
  normaliser of the product is Z1*Z2*overlap, the rest is C90 for the three models.
* **C118** (P_Perturb.v): forward only adds and multiplies (P_Free), so the original and the changed run are one run over pairs of numbers. A
  second run over pairs carries the bounds: |a| <= u and |a' - a| <= v - u are kept by sums and products. Continuity from the derivative
  of the bound (C98).
* **C119** (P_ProbCont.v): limits along the neighbourhoods of (model, input): |.|^2 is continuous (parallelogram law), amplitudes and
  the normaliser are finite sums of products of parameters, being lost (C90) is a closed condition, and ln is continuous at positive
  numbers. The outcome of every neighbouring call then follows from its exact characterisation (C90, C70).

No property was found to be inexpressible.  What no theorem here says anything about: floating-point error of the
probabilistic and adaptive models (C95 covers MPS and TI_MPS, without overflow and underflow), PyTorch's autograd engine
(C98 is about existence and value of derivatives), GPU placement, running time.

## 5. What the proofs showed about the code

False claims, each with a machine-checked counterexample (`..._refuted`):

* contract_matseq returns NaN (and forward then raises AssertionError) when a product vanishes (C03, C11).
* slim_eval wins over parallel_eval, against the documentation (C14).
* bias plus embedding is not normalised (C13); `allclose` drops small off-diagonal entries of lambda (C16-C18).
* TrainableEmbedding hides its module in a lambda, so its parameters are not trained (C21); log_norm before
  forward fails and is stale after an update (C22).
* Too-short discrete inputs are accepted (C23); with an embedding a single value is scored as a constant sequence (C94).  floor2 uses the natural logarithm (C27).  normal_init ignores
  rel_std (C29).  ProbUnifMPS.seq_len returns input_dim (C63).  Complex boundary vectors get independent
  phases (C64).
* MPS with label_site = 0 depends on the batch size of the previous call of any model (C33); one-site
  regions always fail (C34); tensor paths fail (C60); raw sequences of different lengths are padded with
  a non-neutral value (C39).
* `if x is []` guards never fire (C43); Scalar times EdgeVec/OutputMat and every product with a
  ContractableList raise (C44, C45).
* svd_flex with cutoff <= 0 counts padding; sv_vec is not truncated (C47); init_tensor with r before l or
  rectangular bonds (C56).
* Adaptive models with two sites on one side of the output crash at every second flip (C48), with one input
  cannot be built (C49); a flip whose contraction fails leaves bond_list behind (C53).
* An exception in such a flip makes the cores of the previous merge state active: training since the last flip
  is lost; with input_dim=4 and the default label_site no call returns any more (C72).
* register_feature_map with a plain function after a Module raises TypeError (C59).
* init_mlp_embed cannot be used with a discrete DataDomain: make_lambda evaluates the network on a LongTensor, which
  nn.Linear rejects with RuntimeError (C102).
* Evaluation changes adaptive models: the test loop of train_script.py with adaptive_mode=True counts towards
  merge_threshold; with the script's constants its first batch flips the merge state (C101).
* Checkpoints of adaptive models do not contain the merge offset: after an odd number of flips they cannot be loaded
  into a new model (RuntimeError, with the parameters overwritten all the same); the input counter, bond_list and
  sv_list are not restored either (C108).

## 6. Print Assumptions, theorem by theorem

Generated by `tools/assumptions.py` from the built files.

* **Closed under the global context** (120 theorems): C20_trig_rejects, C21_trainable_not_registered_refuted, C21_module_registered_partial, C24_shape_broadcast_iff, C24_shape_broadcast_error, C24_shape_broadcast_perm, C25_batch_broadcast, C25_batch_broadcast_error, C25_batch_broadcast_assert, C25_batch_to, C25_batch_to_error, C30_open_boundary, C30_open_boundary_returns, C30_label_site, C31_periodic_boundary, C31_periodic_boundary_returns, C32_parallel_eval, C33_no_history_partial, C33_exact_outcome, C33_label_zero_first_call, C33_ti_no_history, C33_history_refuted, C34_constructor, C34_one_site_region_fails, C34_works_iff, C34_refuted, C35_path, C35_out_of_range, C35_length_checked, C36_default, C36_default_needs_two, C36_custom, C36_pre_embedded, C36_register, C36_reset, C36_register_default, C36_register_default_forward, C36_ti_raw, C36_ti_register, C37_affine, C38_ti_forward, C38_constructor, C38_fixed_ends_rejected, C39_padding_neutral_embedded_partial, C39_raw_padded_partial, C39_raw_neutral_partial, C39_raw_refuted, C40_ragged, C40_stack_embedded, C40_stack_raw, C40_padding_accepts, C41_region_reduce, C41_sweep_from_left, C41_sweep_from_right, C42_reduce_in_order, C42_parallel_same, C43_empty_list_refuted, C43_scalar_refuted, C43_list_checks_partial, C43_scalar_partial, C44_scale_partial, C44_edge_vec_refuted, C44_output_mat_refuted, C45_exact, C45_list_product_refuted, C45_error_partial, C45_empty_list_partial, C56_exact, C56_random_zero, C56_random_eye_partial, C56_random_eye_default, C56_min_random_eye_partial, C56_unknown_method, C56_bad_bond_string, C56_swapped_bonds_refuted, C56_min_rectangular_refuted, C57_load_HV_data, C58_joint_shuffle, C59_plain_after_module_refuted, C59_register_exact_partial, C60_exact, C60_tensor_path_refuted, C60_zero_tensor_ignored, C60_list_path_partial, C61_mlp_architecture, C61_int_hidden, C33_exact_outcome, C34_works_iff, C82_onehot, C82_onehot_documented, C82_onehot_rejects, C83_rows, C83_ti_rows, C84_linear_core, C84_linear_output, C84_ti_linear_ends, C85_fresh_weights, C85_fresh_output, C85_zero_core, C86_gauge, C87_mirror, C88_ti_gauge, C96_shapes_only, C96_training, C96_ti, C97_homomorphism, C97_ti, C108_mps, C108_ti, C108_mps_strict, C108_ti_strict, C112_cp, C112_memorise, C113_memorise, C114_mps, C114_ti, C115_mps, C115_ti, C116_ti, C117_mps.

* **ClassicalDedekindReals.sig_forall_dec, FunctionalExtensionality.functional_extensionality_dep** (44 theorems): C04_discrete_slices, C04_out_of_alphabet, C04_vector_slices, C04_onehot_agrees, C19_onehot_components, C19_onehot_rejects, C19_lambda_is_one, C46_splits, C46_exact, C46_sv_right, C47_rank_partial, C47_rank, C47_rank_bounds, C47_padding, C47_frobenius_error, C47_sv_vec, C47_nonpositive_cutoff_refuted, C49_exact, C49_two_inputs_partial, C49_one_input_refuted, C50_merge_preserves, C50_same_as_unmerged, C61_domain, C62_domain, C93_test_epoch, C93_order_irrelevant, C95_forward, C95_ti, C95_value, C98_differentiable, C98_ti, C99_monotone, C99_ti, C108_prob, C108_prob_same, C108_prob_strict, C112_rank, C112_tight, C113_rank, C118_mps, C118_ti, C118_continuous, C118_ti_continuous, C118_decision.

* **ClassicalDedekindReals.sig_forall_dec, ClassicalDedekindReals.sig_not_dec, FunctionalExtensionality.functional_extensionality_dep** (17 theorems): C20_trig_unit, C26_phaseify_modulus, C28_near_eye_init, C28_zero_noise, C28_nonsquare_batch_rejected, C29_rel_std_ignored, C29_rel_std_refuted, C29_normal_init_partial, C29_rejected, C63_constructed, C63_rejected, C63_embedding_checked, C63_unif_seq_len_refuted, C64_real_edges_partial, C102_mlp_values, C102_mlp_range, C102_discrete_fails.

* **ClassicalDedekindReals.sig_forall_dec, ClassicalDedekindReals.sig_not_dec, Classical_Prop.classic, FunctionalExtensionality.functional_extensionality_dep** (170 theorems): C01_contract_matseq_log, C01_contract_matseq_value, C02_parallel_same_value, C02_stacked_same, C03_zero_product_refuted, C03_never_wrong_partial, C03_sequential_zero_is_nan, C05_slim_eval, C05_slim_eval_nonzero, C06_log_norm, C06_zero_norm, C07_log_norm_lambda, C08_forward_born, C08_forward_born_vectors, C09_normalised, C10_forward_born, C10_normalised, C11_zero_amplitude_refuted, C11_refuted_witness, C11_zero_amplitude_partial, C11_slim_returns, C12_batch_independence, C13_bias_embedding_refuted, C13_bias_no_embedding_partial, C13_bias_normalised_partial, C13_bias_total, C13_exact_total, C14_override_refuted, C14_slim_wins, C14_same_value_partial, C15_loss_mean, C15_loss_infinite, C15_loss_raises, C16_discrete_refuted, C16_discrete_normalised_partial, C16_exact_total, C17_continuous_refuted, C17_continuous_normalised_partial, C17_exact_total, C18_rescaling_refuted, C18_rescaling_partial, C18_same_class_partial, C19_same_log_probs, C22_before_forward_refuted, C22_stale_refuted, C22_log_norm_current_partial, C23_short_input_refuted, C23_wrong_length_partial, C27_floor2_refuted, C27_floor2_partial, C48_no_crash_partial, C48_two_sites_refuted, C48_flip_partial, C48_exact, C48_exact_met, C48_default_four, C51_default_six, C51_lossless_flip, C51_lossless_exact, C52_schedule, C52_flip_iff, C53_bounds, C53_unchanged, C53_flip_partial, C53_flip_exact, C53_failed_flip_refuted, C54_equal_norms, C54_zero_core, C55_parameters, C55_call, C64_complex_edges_refuted, C65_fresh_bias_neutral, C66_near_eye_uniform, C67_gauge_invariance, C68_scale_invariance, C69_uniform_is_repeated, C16_exact_total, C17_exact_total, C13_exact_total, C71_returns, C71_waiting, C71_waiting_met, C72_rejected_partial, C72_contraction_partial, C72_split_partial, C72_flip_refuted, C72_training_lost, C72_changes_refuted, C72_four_forever, C72_four_met, C48_exact, C48_exact_met, C75_slim_bias_rejected, C75_slim_bias_error, C76_mirror, C77_conjugation, C78_renaming, C79_onehot_vectors, C80_bond_one, C81_log_norm, C81_forward_plus_log_norm, C89_matseq_log_exact, C89_matseq_value_exact, C89_slim_exact, C90_forward_exact, C90_embedded_exact, C91_every_input, C91_wellformed, C91_slim_empty, C92_train_epoch, C92_script, C92_constants, C94_discrete, C94_interval, C94_discrete_rows, C94_interval_rows, C94_slim_empty, C94_slim_empty_interval, C95_nearest, C100_train_epoch, C100_test_epoch, C100_script, C100_flips, C100_constants, C101_first_test_refuted, C101_lossless_test_partial, C102_density, C102_density_unit, C102_positive_returns, C103_split, C103_in_range, C103_scaling, C103_slim, C104_lambda, C104_integral, C104_sincos, C105_entropy_bound, C105_attained, C106_gradient, C106_loss_gradient, C106_score, C107_flip, C107_bound, C107_cutoff, C108_adaptive_exact, C108_adaptive_refuted, C108_fresh_refuted, C108_adaptive_partial, C109_multilinear, C109_rows, C109_parallel, C110_gradient, C110_partials, C110_unique, C110_descent, C110_minimum, C110_scale, C111_capacity, C111_rank, C111_tight, C114_prob, C114_prob_embedded, C115_prob, C115_prob_embedded, C116_prob, C117_prob, C119_prob, C119_embedded, C119_loss, C119_loss_embedded.
