{
 "claims": [
  {
   "property": "C01",
   "status": "proved",
   "theorems": [
    "C01_contract_matseq_log",
    "C01_contract_matseq_value"
   ],
   "note": "All shapes, batches, strategies; exact arithmetic."
  },
  {
   "property": "C02",
   "status": "proved",
   "theorems": [
    "C02_parallel_same_value",
    "C02_stacked_same"
   ],
   "note": "Parallel vs sequential and stacked vs list."
  },
  {
   "property": "C03",
   "status": "partial",
   "theorems": [
    "C03_zero_product_refuted",
    "C03_never_wrong_partial",
    "C03_sequential_zero_is_nan"
   ],
   "note": "False as stated: a zero product gives NaN (refuted). Proved: never a wrong finite value; in sequential mode with two boundary vectors a zero product is always NaN."
  },
  {
   "property": "C04",
   "status": "proved",
   "theorems": [
    "C04_discrete_slices",
    "C04_out_of_alphabet",
    "C04_vector_slices",
    "C04_onehot_agrees"
   ],
   "note": "Indices follow the Python/torch convention (legal range -d..d-1)."
  },
  {
   "property": "C05",
   "status": "proved",
   "theorems": [
    "C05_slim_eval",
    "C05_slim_eval_nonzero"
   ],
   "note": ""
  },
  {
   "property": "C06",
   "status": "proved",
   "theorems": [
    "C06_log_norm",
    "C06_zero_norm"
   ],
   "note": ""
  },
  {
   "property": "C07",
   "status": "proved",
   "theorems": [
    "C07_log_norm_lambda"
   ],
   "note": ""
  },
  {
   "property": "C08",
   "status": "proved",
   "theorems": [
    "C08_forward_born",
    "C08_forward_born_vectors"
   ],
   "note": ""
  },
  {
   "property": "C09",
   "status": "proved",
   "theorems": [
    "C09_normalised"
   ],
   "note": ""
  },
  {
   "property": "C10",
   "status": "proved",
   "theorems": [
    "C10_forward_born",
    "C10_normalised"
   ],
   "note": ""
  },
  {
   "property": "C11",
   "status": "partial",
   "theorems": [
    "C11_zero_amplitude_refuted",
    "C11_refuted_witness",
    "C11_zero_amplitude_partial",
    "C11_slim_returns"
   ],
   "note": "False as stated: default mode raises AssertionError (refuted). Proved: when forward returns, exactly zero amplitudes give -inf; slim_eval returns when left products do not vanish."
  },
  {
   "property": "C12",
   "status": "proved",
   "theorems": [
    "C12_batch_independence"
   ],
   "note": "Also across evaluation modes."
  },
  {
   "property": "C13",
   "status": "partial",
   "theorems": [
    "C13_bias_embedding_refuted",
    "C13_bias_no_embedding_partial",
    "C13_bias_normalised_partial",
    "C13_bias_total",
    "C13_exact_total"
   ],
   "note": "False as stated with an embedding whose component sums are not 1 (refuted by a concrete model). Proved: normalised without embedding, with an embedding whose component sums are 1, and the exact total in general (C13_exact_total, no losslessness hypothesis)."
  },
  {
   "property": "C14",
   "status": "partial",
   "theorems": [
    "C14_override_refuted",
    "C14_slim_wins",
    "C14_same_value_partial"
   ],
   "note": "False as stated: slim_eval wins (refuted). Proved: on bias-free models both return the same values."
  },
  {
   "property": "C15",
   "status": "proved",
   "theorems": [
    "C15_loss_mean",
    "C15_loss_infinite",
    "C15_loss_raises"
   ],
   "note": ""
  },
  {
   "property": "C16",
   "status": "partial",
   "theorems": [
    "C16_discrete_refuted",
    "C16_discrete_normalised_partial",
    "C16_exact_total"
   ],
   "note": "False as stated: make_lambda drops off-diagonal entries within torch.allclose tolerance (refuted). Proved when the simplification is lossless; C16_exact_total gives the exact values and total for every embedding."
  },
  {
   "property": "C17",
   "status": "partial",
   "theorems": [
    "C17_continuous_refuted",
    "C17_continuous_normalised_partial",
    "C17_exact_total"
   ],
   "note": "False as stated for the same allclose reason (refuted). Proved when the simplification is lossless; C17_exact_total gives the exact density and integral for every embedding."
  },
  {
   "property": "C18",
   "status": "partial",
   "theorems": [
    "C18_rescaling_refuted",
    "C18_rescaling_partial",
    "C18_same_class_partial"
   ],
   "note": "False as stated: rescaling can move the lambda matrix across the allclose tolerance (refuted). Proved when the tolerances classify both lambda matrices alike."
  },
  {
   "property": "C19",
   "status": "proved",
   "theorems": [
    "C19_onehot_components",
    "C19_onehot_rejects",
    "C19_lambda_is_one",
    "C19_same_log_probs"
   ],
   "note": ""
  },
  {
   "property": "C20",
   "status": "proved",
   "theorems": [
    "C20_trig_unit",
    "C20_trig_rejects"
   ],
   "note": ""
  },
  {
   "property": "C21",
   "status": "partial",
   "theorems": [
    "C21_trainable_not_registered_refuted",
    "C21_module_registered_partial"
   ],
   "note": "False as stated: TrainableEmbedding hides the module in a lambda, so none of its parameters is registered (refuted for every module). Proved: Modules given to FixedEmbedding are registered."
  },
  {
   "property": "C22",
   "status": "partial",
   "theorems": [
    "C22_before_forward_refuted",
    "C22_stale_refuted",
    "C22_log_norm_current_partial"
   ],
   "note": "False as stated: log_norm raises before the first forward and is stale after an embedding update (refuted). Proved for every history with a forward call after the last embedding update."
  },
  {
   "property": "C23",
   "status": "partial",
   "theorems": [
    "C23_short_input_refuted",
    "C23_wrong_length_partial"
   ],
   "note": "False as stated: short discrete inputs are accepted (refuted). Proved: slim_eval, too-long discrete and wrong-length vector inputs raise."
  },
  {
   "property": "C24",
   "status": "proved",
   "theorems": [
    "C24_shape_broadcast_iff",
    "C24_shape_broadcast_error",
    "C24_shape_broadcast_perm"
   ],
   "note": ""
  },
  {
   "property": "C25",
   "status": "proved",
   "theorems": [
    "C25_batch_broadcast",
    "C25_batch_broadcast_error",
    "C25_batch_broadcast_assert",
    "C25_batch_to",
    "C25_batch_to_error"
   ],
   "note": ""
  },
  {
   "property": "C26",
   "status": "proved",
   "theorems": [
    "C26_phaseify_modulus"
   ],
   "note": ""
  },
  {
   "property": "C27",
   "status": "partial",
   "theorems": [
    "C27_floor2_refuted",
    "C27_floor2_partial"
   ],
   "note": "False as stated (natural logarithm): floor2 4 = 2. Proved: what it computes."
  },
  {
   "property": "C28",
   "status": "proved",
   "theorems": [
    "C28_near_eye_init",
    "C28_zero_noise",
    "C28_nonsquare_batch_rejected"
   ],
   "note": ""
  },
  {
   "property": "C29",
   "status": "partial",
   "theorems": [
    "C29_rel_std_ignored",
    "C29_rel_std_refuted",
    "C29_normal_init_partial",
    "C29_rejected"
   ],
   "note": "False as stated: rel_std is ignored. Proved for rel_std=1."
  },
  {
   "property": "C30",
   "status": "proved",
   "theorems": [
    "C30_open_boundary",
    "C30_open_boundary_returns",
    "C30_label_site"
   ],
   "note": "For every history of calls: whenever forward returns, every row is the contraction of its input row (with label_site=0 and another batch size in the last call the rows are broadcast, C33). It returns for every label_site whose regions do not have exactly one site; exact conditions: C34_works_iff."
  },
  {
   "property": "C31",
   "status": "proved",
   "theorems": [
    "C31_periodic_boundary",
    "C31_periodic_boundary_returns"
   ],
   "note": "As C30, for every history of calls."
  },
  {
   "property": "C32",
   "status": "proved",
   "theorems": [
    "C32_parallel_eval"
   ],
   "note": "Every model, input (raw, embedded, routed or malformed) and history: the same exception or the same output."
  },
  {
   "property": "C33",
   "status": "partial",
   "theorems": [
    "C33_no_history_partial",
    "C33_exact_outcome",
    "C33_label_zero_first_call",
    "C33_ti_no_history",
    "C33_history_refuted"
   ],
   "note": "False as stated: with label_site=0 the output core is expanded to the batch size of the last call of any model (refuted: exception, or silently a wrong number of rows). Proved: with label_site>0, and for TI_MPS, the result does not depend on the history; the exact outcome for every label_site and history."
  },
  {
   "property": "C34",
   "status": "partial",
   "theorems": [
    "C34_constructor",
    "C34_one_site_region_fails",
    "C34_works_iff",
    "C34_refuted"
   ],
   "note": "False as stated: a region of exactly one site always raises AssertionError (default label site of 2 or 3 inputs). Proved: the constructor accepts every label site, and exactly when a call returns, for every label_site and history."
  },
  {
   "property": "C35",
   "status": "proved",
   "theorems": [
    "C35_path",
    "C35_out_of_range",
    "C35_length_checked"
   ],
   "note": "List paths; negative entries count from the end; entries out of range raise; a wrong length is rejected."
  },
  {
   "property": "C36",
   "status": "proved",
   "theorems": [
    "C36_default",
    "C36_default_needs_two",
    "C36_custom",
    "C36_pre_embedded",
    "C36_register",
    "C36_reset",
    "C36_register_default",
    "C36_register_default_forward",
    "C36_ti_raw",
    "C36_ti_register"
   ],
   "note": "Custom maps: nonempty batches (torch.stack of nothing raises)."
  },
  {
   "property": "C37",
   "status": "proved",
   "theorems": [
    "C37_affine"
   ],
   "note": "Every history; whenever the call for the unmixed input returns, the others return too."
  },
  {
   "property": "C38",
   "status": "proved",
   "theorems": [
    "C38_ti_forward",
    "C38_constructor",
    "C38_fixed_ends_rejected"
   ],
   "note": "Any commutative ring; every history; serial and parallel; fixed_ends only ever raises (proved)."
  },
  {
   "property": "C39",
   "status": "partial",
   "theorems": [
    "C39_padding_neutral_embedded_partial",
    "C39_raw_padded_partial",
    "C39_raw_neutral_partial",
    "C39_raw_refuted"
   ],
   "note": "False for raw scalar sequences with the default feature map: padding is done before embedding, so a padded site embeds 0 as (0,1) (refuted). Proved: neutral for pre-embedded sequences, and for raw sequences under any feature map that sends 0 to the zero vector; the exact value for raw sequences in general."
  },
  {
   "property": "C40",
   "status": "proved",
   "theorems": [
    "C40_ragged",
    "C40_stack_embedded",
    "C40_stack_raw",
    "C40_padding_accepts"
   ],
   "note": ""
  },
  {
   "property": "C41",
   "status": "proved",
   "theorems": [
    "C41_region_reduce",
    "C41_sweep_from_left",
    "C41_sweep_from_right"
   ],
   "note": "MatRegion.reduce and both vector sweeps, any number >= 1 of matrices, any commutative ring."
  },
  {
   "property": "C42",
   "status": "proved",
   "theorems": [
    "C42_reduce_in_order",
    "C42_parallel_same"
   ],
   "note": "Left edge vector, any list of SingleMat/MatRegion/at most one OutputCore, right edge vector or output matrix; both values of parallel_eval; the global batch size may hold anything before the call."
  },
  {
   "property": "C43",
   "status": "partial",
   "theorems": [
    "C43_empty_list_refuted",
    "C43_scalar_refuted",
    "C43_list_checks_partial",
    "C43_scalar_partial"
   ],
   "note": "Refuted by the code: ContractableList([]) is accepted and its reduce() raises IndexError; Scalar of a 0-d tensor raises ValueError. Proved: exactly which lists and tensors are accepted."
  },
  {
   "property": "C44",
   "status": "partial",
   "theorems": [
    "C44_scale_partial",
    "C44_edge_vec_refuted",
    "C44_output_mat_refuted"
   ],
   "note": "Holds for Contractable, MatRegion, OutputCore, SingleMat and Scalar from both sides; refuted for EdgeVec and OutputMat, where every product with a Scalar raises TypeError."
  },
  {
   "property": "C45",
   "status": "partial",
   "theorems": [
    "C45_exact",
    "C45_list_product_refuted",
    "C45_error_partial",
    "C45_empty_list_partial"
   ],
   "note": "Refuted by the code: every product of a nonempty ContractableList with a contractable raises an exception, from either side; the outcome of every such product, for every list and contractable, is proved (C45_exact)."
  },
  {
   "property": "C46",
   "status": "proved",
   "theorems": [
    "C46_splits",
    "C46_exact",
    "C46_sv_right"
   ],
   "note": "torch.svd is an argument assumed to return a singular value decomposition of the unfolded matrix; real tensors. Any label sets, sizes, cutoff, max_D."
  },
  {
   "property": "C47",
   "status": "partial",
   "theorems": [
    "C47_rank_partial",
    "C47_rank",
    "C47_rank_bounds",
    "C47_padding",
    "C47_frobenius_error",
    "C47_sv_vec",
    "C47_nonpositive_cutoff_refuted"
   ],
   "note": "Holds for cutoff > 0. Refuted for cutoff <= 0 with a max_D above the number of singular values: the padded zeros are counted too. Proved for any cutoff: the exact count, the bounds, the zero padding and the Frobenius error. sv_vec receives the spectrum that is padded but not truncated by the cutoff."
  },
  {
   "property": "C48",
   "status": "partial",
   "theorems": [
    "C48_no_crash_partial",
    "C48_two_sites_refuted",
    "C48_flip_partial",
    "C48_exact",
    "C48_exact_met",
    "C48_default_four",
    "C51_default_six"
   ],
   "note": "False as stated: with exactly two input sites on one side of the output every second flip raises AssertionError (e.g. the first flip for input_dim=4 with the default label_site). Proved: exactly those flips fail and all other calls succeed, for every history (hypothesis: torch.svd returns a decomposition, no pair vanishes below the cutoff, no lone core is zero). C48_exact gives the exact outcome (rows, values or exception) of every call in every history, with no hypothesis on the batch size of the last call."
  },
  {
   "property": "C49",
   "status": "partial",
   "theorems": [
    "C49_exact",
    "C49_two_inputs_partial",
    "C49_one_input_refuted"
   ],
   "note": "False as stated for input_dim=1 (AssertionError for all arguments). Proved for every input_dim >= 2; and the exact outcome of the constructor for every argument (C49_exact)."
  },
  {
   "property": "C50",
   "status": "proved",
   "theorems": [
    "C50_merge_preserves",
    "C50_same_as_unmerged"
   ],
   "note": "Both offsets, any parameters, both boundary conditions; the merged list also works where the unmerged one fails (C34)."
  },
  {
   "property": "C51",
   "status": "proved",
   "theorems": [
    "C51_lossless_flip",
    "C51_lossless_exact"
   ],
   "note": "For every history, for all flips that do not fail (C48); given that torch.svd returns a decomposition. C51_lossless_exact: without a hypothesis on the batch size of the last call."
  },
  {
   "property": "C52",
   "status": "proved",
   "theorems": [
    "C52_schedule",
    "C52_flip_iff"
   ],
   "note": "For every torch.svd and every history."
  },
  {
   "property": "C53",
   "status": "partial",
   "theorems": [
    "C53_bounds",
    "C53_unchanged",
    "C53_flip_partial",
    "C53_flip_exact",
    "C53_failed_flip_refuted"
   ],
   "note": "Proved for every successful call. Missing: a flip whose contraction then fails (label_site=0 with a changed batch size) leaves the lists as they were although the cores were split: C53_failed_flip_refuted (with C53_failed_flip_met)."
  },
  {
   "property": "C54",
   "status": "proved",
   "theorems": [
    "C54_equal_norms",
    "C54_zero_core"
   ],
   "note": ""
  },
  {
   "property": "C55",
   "status": "proved",
   "theorems": [
    "C55_parameters",
    "C55_call"
   ],
   "note": "For every torch.svd and every history. Only the norm of unmerged cores of the list that was active is changed in place."
  },
  {
   "property": "C56",
   "status": "partial",
   "theorems": [
    "C56_exact",
    "C56_random_zero",
    "C56_random_eye_partial",
    "C56_random_eye_default",
    "C56_min_random_eye_partial",
    "C56_unknown_method",
    "C56_bad_bond_string",
    "C56_swapped_bonds_refuted",
    "C56_min_rectangular_refuted"
   ],
   "note": "random_zero, unknown methods and malformed bond strings as stated. Refuted: random_eye with r before l and different bond dimensions does not give the identity; min_random_eye raises RuntimeError when init_dim exceeds one of two different bonds. Proved: the stated value in all other cases (l before r, or equal bonds; init_dim fits, or equal bonds); and the exact outcome (every entry, or the exception) for every argument (C56_exact)."
  },
  {
   "property": "C57",
   "status": "proved",
   "theorems": [
    "C57_load_HV_data"
   ],
   "note": "Also: no image of the described kind is missing. Hypothesis: numpy shuffle with a fixed seed applies a permutation that depends only on the number of rows."
  },
  {
   "property": "C58",
   "status": "proved",
   "theorems": [
    "C58_joint_shuffle"
   ],
   "note": "Same hypothesis on numpy shuffle."
  },
  {
   "property": "C59",
   "status": "partial",
   "theorems": [
    "C59_plain_after_module_refuted",
    "C59_register_exact_partial"
   ],
   "note": "False as stated: a plain function after a Module raises TypeError (refuted). Proved: exact characterisation for every history of calls."
  },
  {
   "property": "C60",
   "status": "partial",
   "theorems": [
    "C60_exact",
    "C60_tensor_path_refuted",
    "C60_zero_tensor_ignored",
    "C60_list_path_partial"
   ],
   "note": "False as stated: a tensor path with two or more entries raises RuntimeError, a tensor with the single entry 0 is ignored. Proved: lists are accepted exactly when empty or of length input_dim; and the exact outcome of the constructor for every path and label_site (C60_exact)."
  },
  {
   "property": "C61",
   "status": "proved",
   "theorems": [
    "C61_mlp_architecture",
    "C61_int_hidden",
    "C61_domain"
   ],
   "note": ""
  },
  {
   "property": "C62",
   "status": "proved",
   "theorems": [
    "C62_domain"
   ],
   "note": ""
  },
  {
   "property": "C63",
   "status": "partial",
   "theorems": [
    "C63_constructed",
    "C63_rejected",
    "C63_embedding_checked",
    "C63_unif_seq_len_refuted"
   ],
   "note": "False for ProbUnifMPS.seq_len, which reports input_dim (C63_unif_seq_len_refuted); everything else is proved."
  },
  {
   "property": "C64",
   "status": "partial",
   "theorems": [
    "C64_real_edges_partial",
    "C64_complex_edges_refuted"
   ],
   "note": "False for complex parameters: phaseify gives the two vectors independent phases, their overlap can vanish and then every call fails (C64_complex_edges_refuted). Proved for real parameters."
  },
  {
   "property": "C65",
   "status": "proved",
   "theorems": [
    "C65_fresh_bias_neutral"
   ],
   "note": ""
  },
  {
   "property": "C66",
   "status": "proved",
   "theorems": [
    "C66_near_eye_uniform"
   ],
   "note": ""
  },
  {
   "property": "C67",
   "status": "proved",
   "theorems": [
    "C67_gauge_invariance"
   ],
   "note": "For models without bias and embedding."
  },
  {
   "property": "C68",
   "status": "proved",
   "theorems": [
    "C68_scale_invariance"
   ],
   "note": "For models without bias and embedding."
  },
  {
   "property": "C69",
   "status": "proved",
   "theorems": [
    "C69_uniform_is_repeated"
   ],
   "note": ""
  },
  {
   "property": "C70",
   "status": "proved",
   "theorems": [
    "C16_exact_total",
    "C17_exact_total",
    "C13_exact_total"
   ],
   "note": "Every embedding; no losslessness hypothesis."
  },
  {
   "property": "C71",
   "status": "proved",
   "theorems": [
    "C71_returns",
    "C71_waiting",
    "C71_waiting_met"
   ],
   "note": "Every history, any torch.svd, any remembered batch size."
  },
  {
   "property": "C72",
   "status": "partial",
   "theorems": [
    "C72_rejected_partial",
    "C72_contraction_partial",
    "C72_split_partial",
    "C72_flip_refuted",
    "C72_training_lost",
    "C72_changes_refuted",
    "C72_four_forever",
    "C72_four_met"
   ],
   "note": "False as stated: a flip that fails in _merge (two sites on one side of the output) has already switched the offset, so that the cores of the previous merge state become active and all training since the last flip is lost (C72_flip_refuted, C72_training_lost, concrete: C72_changes_refuted); with input_dim=4 and the default label_site no call ever returns again (C72_four_forever). Proved: rejected inputs, failing contractions without a flip and failing splits leave the model as it was. Not followed: cores that became NaN."
  },
  {
   "property": "C73",
   "status": "proved",
   "theorems": [
    "C48_exact",
    "C48_exact_met"
   ],
   "note": "Every history, also with caught exceptions; hypothesis at a flip: torch.svd returns a decomposition, no pair vanishes below the cutoff, no lone core is zero."
  },
  {
   "property": "C74",
   "status": "proved",
   "theorems": [
    "C33_exact_outcome",
    "C34_works_iff"
   ],
   "note": "Any commutative ring."
  },
  {
   "property": "C75",
   "status": "proved",
   "theorems": [
    "C75_slim_bias_rejected",
    "C75_slim_bias_error"
   ],
   "note": "The rejection also holds with an embedding."
  },
  {
   "property": "C76",
   "status": "proved",
   "theorems": [
    "C76_mirror"
   ],
   "note": "Models without embedding."
  },
  {
   "property": "C77",
   "status": "proved",
   "theorems": [
    "C77_conjugation"
   ],
   "note": "Models without embedding."
  },
  {
   "property": "C78",
   "status": "proved",
   "theorems": [
    "C78_renaming"
   ],
   "note": "Models without embedding."
  },
  {
   "property": "C79",
   "status": "proved",
   "theorems": [
    "C79_onehot_vectors"
   ],
   "note": "Models without embedding."
  },
  {
   "property": "C80",
   "status": "proved",
   "theorems": [
    "C80_bond_one"
   ],
   "note": "Models without embedding."
  },
  {
   "property": "C81",
   "status": "proved",
   "theorems": [
    "C81_log_norm",
    "C81_forward_plus_log_norm"
   ],
   "note": "Models without embedding."
  },
  {
   "property": "C82",
   "status": "proved",
   "theorems": [
    "C82_onehot",
    "C82_onehot_documented",
    "C82_onehot_rejects"
   ],
   "note": "Any commutative ring."
  },
  {
   "property": "C83",
   "status": "proved",
   "theorems": [
    "C83_rows",
    "C83_ti_rows"
   ],
   "note": "Any commutative ring."
  },
  {
   "property": "C84",
   "status": "proved",
   "theorems": [
    "C84_linear_core",
    "C84_linear_output",
    "C84_ti_linear_ends"
   ],
   "note": "Any commutative ring."
  },
  {
   "property": "C85",
   "status": "proved",
   "theorems": [
    "C85_fresh_weights",
    "C85_fresh_output",
    "C85_zero_core"
   ],
   "note": "Any commutative ring."
  },
  {
   "property": "C86",
   "status": "proved",
   "theorems": [
    "C86_gauge"
   ],
   "note": "Any commutative ring."
  },
  {
   "property": "C87",
   "status": "proved",
   "theorems": [
    "C87_mirror"
   ],
   "note": "Any commutative ring."
  },
  {
   "property": "C88",
   "status": "proved",
   "theorems": [
    "C88_ti_gauge"
   ],
   "note": "Any commutative ring."
  },
  {
   "property": "C89",
   "status": "proved",
   "theorems": [
    "C89_matseq_log_exact",
    "C89_matseq_value_exact",
    "C89_slim_exact"
   ],
   "note": "Positive matrix sizes (d, e, D > 0)."
  },
  {
   "property": "C90",
   "status": "proved",
   "theorems": [
    "C90_forward_exact",
    "C90_embedded_exact"
   ],
   "note": "Exact counterpart of C11; embeddings over discrete domains through the normaliser of C70."
  },
  {
   "property": "C91",
   "status": "proved",
   "theorems": [
    "C91_every_input",
    "C91_wellformed",
    "C91_slim_empty"
   ],
   "note": "Exact counterpart of C23 (specification in InputSpec.v). C91_slim_empty covers the inputs C91_every_input excludes."
  },
  {
   "property": "C92",
   "status": "proved",
   "theorems": [
    "C92_train_epoch",
    "C92_script",
    "C92_constants"
   ],
   "note": "Model of train_script.py in TrainScript.v; optimiser, data and sampler orders are arbitrary parameters. adaptive_mode=False only."
  },
  {
   "property": "C93",
   "status": "proved",
   "theorems": [
    "C93_test_epoch",
    "C93_order_irrelevant"
   ],
   "note": "As C92."
  },
  {
   "property": "C94",
   "status": "proved",
   "theorems": [
    "C94_discrete",
    "C94_interval",
    "C94_discrete_rows",
    "C94_interval_rows",
    "C94_slim_empty",
    "C94_slim_empty_interval"
   ],
   "note": "C91 with an embedding: C94_discrete and C94_interval for any shape, C94_discrete_rows and C94_interval_rows spell out batches of sequences. For empty sequences with slim_eval on a uniform model: C94_slim_empty, C94_slim_empty_interval."
  },
  {
   "property": "C95",
   "status": "proved",
   "theorems": [
    "C95_forward",
    "C95_ti",
    "C95_value",
    "C95_nearest"
   ],
   "note": "C95_forward and C95_ti: any model; C95_value: the models of the constructor, with the contraction of C34 as the exact value; C95_nearest: round to nearest with p bits (Flocq). Sums in the order of the model; feature map values and parameters are taken as given; no overflow or underflow."
  },
  {
   "property": "C96",
   "status": "proved",
   "theorems": [
    "C96_shapes_only",
    "C96_training",
    "C96_ti"
   ],
   "note": ""
  },
  {
   "property": "C97",
   "status": "proved",
   "theorems": [
    "C97_homomorphism",
    "C97_ti"
   ],
   "note": ""
  },
  {
   "property": "C98",
   "status": "proved",
   "theorems": [
    "C98_differentiable",
    "C98_ti"
   ],
   "note": ""
  },
  {
   "property": "C99",
   "status": "proved",
   "theorems": [
    "C99_monotone",
    "C99_ti"
   ],
   "note": ""
  },
  {
   "property": "C100",
   "status": "proved",
   "theorems": [
    "C100_train_epoch",
    "C100_test_epoch",
    "C100_script",
    "C100_flips",
    "C100_constants"
   ],
   "note": "optimiser, sampler, torch.svd and data set are arbitrary functions; sizes: output core not at the left end and no side of it with exactly two sites (C48)"
  },
  {
   "property": "C101",
   "status": "partial",
   "theorems": [
    "C101_first_test_refuted",
    "C101_lossless_test_partial"
   ],
   "note": "the claim is false: with the constants of the script the first test batch flips (C101_first_test_refuted, happens for a concrete model: C101_test_flips_met); true when the flips are lossless (C101_lossless_test_partial)"
  },
  {
   "property": "C102",
   "status": "proved",
   "theorems": [
    "C102_mlp_values",
    "C102_mlp_range",
    "C102_discrete_fails",
    "C102_density",
    "C102_density_unit",
    "C102_positive_returns"
   ],
   "note": "real parameters; exact arithmetic; weights, interval, model and inputs arbitrary"
  },
  {
   "property": "C103",
   "status": "proved",
   "theorems": [
    "C103_split",
    "C103_in_range",
    "C103_scaling",
    "C103_slim"
   ],
   "note": "exact arithmetic (the bounds concern the exact values of the rescaled numbers)"
  },
  {
   "property": "C104",
   "status": "proved",
   "theorems": [
    "C104_lambda",
    "C104_integral",
    "C104_sincos"
   ],
   "note": "Riemann integral of Coquelicot; exact arithmetic"
  },
  {
   "property": "C105",
   "status": "proved",
   "theorems": [
    "C105_entropy_bound",
    "C105_attained"
   ],
   "note": "exact arithmetic"
  },
  {
   "property": "C106",
   "status": "proved",
   "theorems": [
    "C106_gradient",
    "C106_loss_gradient",
    "C106_score"
   ],
   "note": "derivative of Coquelicot; exact arithmetic; autograd itself is not modelled"
  },
  {
   "property": "C107",
   "status": "proved",
   "theorems": [
    "C107_flip",
    "C107_bound",
    "C107_cutoff"
   ],
   "note": "real arithmetic; torch.svd is a parameter assumed correct on the matrices of the pairs"
  },
  {
   "property": "C108",
   "status": "partial",
   "theorems": [
    "C108_mps",
    "C108_ti",
    "C108_prob",
    "C108_prob_same",
    "C108_mps_strict",
    "C108_ti_strict",
    "C108_prob_strict",
    "C108_adaptive_exact",
    "C108_adaptive_refuted",
    "C108_fresh_refuted",
    "C108_adaptive_partial"
   ],
   "note": "refuted for adaptive models: the merge offset is not part of the checkpoint (exact outcome proved for all histories); proved for all other models, where a checkpoint is accepted exactly if the dimensions, label site and presence of a bias agree (_strict); state_dict/load_state_dict of torch.nn.Module are modelled from their documentation, strict=True"
  },
  {
   "property": "C109",
   "status": "proved",
   "theorems": [
    "C109_multilinear",
    "C109_rows",
    "C109_parallel"
   ],
   "note": "exact real arithmetic; row b of an expanded result comes from the only row of a batch of one (function source)"
  },
  {
   "property": "C110",
   "status": "proved",
   "theorems": [
    "C110_gradient",
    "C110_partials",
    "C110_unique",
    "C110_descent",
    "C110_minimum",
    "C110_scale"
   ],
   "note": "exact real arithmetic; autograd itself is not modelled: the derivative is that of the function the forward pass computes"
  },
  {
   "property": "C111",
   "status": "proved",
   "theorems": [
    "C111_capacity",
    "C111_rank",
    "C111_tight"
   ],
   "note": "without embedding; exact arithmetic over the real or complex numbers"
  },
  {
   "property": "C112",
   "status": "proved",
   "theorems": [
    "C112_cp",
    "C112_memorise",
    "C112_rank",
    "C112_tight"
   ],
   "note": "exact arithmetic; no path, no adaptive mode, no embedding"
  },
  {
   "property": "C113",
   "status": "proved",
   "theorems": [
    "C113_memorise",
    "C113_rank"
   ],
   "note": "exact arithmetic; one tensor of sequences of equal length"
  },
  {
   "property": "C114",
   "status": "proved",
   "theorems": [
    "C114_mps",
    "C114_ti",
    "C114_prob",
    "C114_prob_embedded"
   ],
   "note": "exact arithmetic; MPS without adaptive mode; ProbMPS and ProbUnifMPS without embedding or with one over a discrete domain or an interval, slim_eval only without bias"
  },
  {
   "property": "C115",
   "status": "proved",
   "theorems": [
    "C115_mps",
    "C115_ti",
    "C115_prob",
    "C115_prob_embedded"
   ],
   "note": "exact arithmetic; MPS without adaptive mode; TI_MPS without fixed ends; ProbMPS and ProbUnifMPS without embedding or with one over a discrete domain or an interval, slim_eval only without bias; open ends need 1/2"
  },
  {
   "property": "C116",
   "status": "proved",
   "theorems": [
    "C116_ti",
    "C116_prob"
   ],
   "note": "exact arithmetic; MPS without adaptive mode; ProbMPS and ProbUnifMPS without embedding, slim_eval only without bias"
  },
  {
   "property": "C117",
   "status": "proved",
   "theorems": [
    "C117_mps",
    "C117_prob"
   ],
   "note": "exact arithmetic; MPS without adaptive mode; words (one-hot vectors, letters); ProbMPS and ProbUnifMPS without embedding, slim_eval only without bias"
  },
  {
   "property": "C118",
   "status": "proved",
   "theorems": [
    "C118_mps",
    "C118_ti",
    "C118_continuous",
    "C118_ti_continuous",
    "C118_decision"
   ],
   "note": "exact real arithmetic, embedded inputs; the contraction used inside an adaptive model is covered (merged modules), a flip in between is not"
  },
  {
   "property": "C119",
   "status": "proved",
   "theorems": [
    "C119_prob",
    "C119_embedded",
    "C119_loss",
    "C119_loss_embedded"
   ],
   "note": "exact arithmetic; ProbMPS and ProbUnifMPS, without embedding or with one over a discrete domain or an interval (then the input itself is fixed), slim_eval only without bias"
  }
 ]
}