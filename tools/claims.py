c('C01','proved','All shapes, batches, strategies; exact arithmetic.','C01_contract_matseq_log','C01_contract_matseq_value')
c('C02','proved','Parallel vs sequential and stacked vs list.','C02_parallel_same_value','C02_stacked_same')
c('C03','partial','False as stated: a zero product gives NaN (refuted). Proved: never a wrong finite value; in sequential mode with two boundary vectors a zero product is always NaN.','C03_zero_product_refuted','C03_never_wrong_partial','C03_sequential_zero_is_nan')
c('C24','proved','','C24_shape_broadcast_iff','C24_shape_broadcast_error','C24_shape_broadcast_perm')
c('C25','proved','','C25_batch_broadcast','C25_batch_broadcast_error','C25_batch_broadcast_assert','C25_batch_to','C25_batch_to_error')
c('C26','proved','','C26_phaseify_modulus')
c('C27','partial','False as stated (natural logarithm): floor2 4 = 2. Proved: what it computes.','C27_floor2_refuted','C27_floor2_partial')
c('C28','proved','','C28_near_eye_init','C28_zero_noise','C28_nonsquare_batch_rejected')
c('C29','partial','False as stated: rel_std is ignored. Proved for rel_std=1.','C29_rel_std_ignored','C29_rel_std_refuted','C29_normal_init_partial','C29_rejected')
c('C04','proved','Indices follow the Python/torch convention (legal range -d..d-1).','C04_discrete_slices','C04_out_of_alphabet','C04_vector_slices','C04_onehot_agrees')
c('C05','proved','','C05_slim_eval','C05_slim_eval_nonzero')
c('C06','proved','','C06_log_norm','C06_zero_norm')
c('C07','proved','','C07_log_norm_lambda')
c('C08','proved','','C08_forward_born','C08_forward_born_vectors')
c('C09','proved','','C09_normalised')
c('C10','proved','','C10_forward_born','C10_normalised')
c('C11','partial','False as stated: default mode raises AssertionError (refuted). Proved: when forward returns, exactly zero amplitudes give -inf; slim_eval returns when left products do not vanish.','C11_zero_amplitude_refuted','C11_refuted_witness','C11_zero_amplitude_partial','C11_slim_returns')
c('C12','proved','Also across evaluation modes.','C12_batch_independence')
c('C14','partial','False as stated: slim_eval wins (refuted). Proved: on bias-free models both return the same values.','C14_override_refuted','C14_slim_wins','C14_same_value_partial')
c('C15','proved','','C15_loss_mean','C15_loss_infinite','C15_loss_raises')
c('C23','partial','False as stated: short discrete inputs are accepted (refuted). Proved: slim_eval, too-long discrete and wrong-length vector inputs raise.','C23_short_input_refuted','C23_wrong_length_partial')
c('C13','partial','False as stated with an embedding whose component sums are not 1 (refuted by a concrete model). Proved: normalised without embedding, with an embedding whose component sums are 1, and the exact total in general (C13_exact_total, no losslessness hypothesis).','C13_bias_embedding_refuted','C13_bias_no_embedding_partial','C13_bias_normalised_partial','C13_bias_total','C13_exact_total')
c('C16','partial','False as stated: make_lambda drops off-diagonal entries within torch.allclose tolerance (refuted). Proved when the simplification is lossless; C16_exact_total gives the exact values and total for every embedding.','C16_discrete_refuted','C16_discrete_normalised_partial','C16_exact_total')
c('C17','partial','False as stated for the same allclose reason (refuted). Proved when the simplification is lossless; C17_exact_total gives the exact density and integral for every embedding.','C17_continuous_refuted','C17_continuous_normalised_partial','C17_exact_total')
c('C18','partial','False as stated: rescaling can move the lambda matrix across the allclose tolerance (refuted). Proved when the tolerances classify both lambda matrices alike.','C18_rescaling_refuted','C18_rescaling_partial','C18_same_class_partial')
c('C19','proved','','C19_onehot_components','C19_onehot_rejects','C19_lambda_is_one','C19_same_log_probs')
c('C22','partial','False as stated: log_norm raises before the first forward and is stale after an embedding update (refuted). Proved for every history with a forward call after the last embedding update.','C22_before_forward_refuted','C22_stale_refuted','C22_log_norm_current_partial')
c('C20','proved','','C20_trig_unit','C20_trig_rejects')
c('C21','partial','False as stated: TrainableEmbedding hides the module in a lambda, so none of its parameters is registered (refuted for every module). Proved: Modules given to FixedEmbedding are registered.','C21_trainable_not_registered_refuted','C21_module_registered_partial')
c('C59','partial','False as stated: a plain function after a Module raises TypeError (refuted). Proved: exact characterisation for every history of calls.','C59_plain_after_module_refuted','C59_register_exact_partial')
c('C61','proved','','C61_mlp_architecture','C61_int_hidden','C61_domain')
c('C62','proved','','C62_domain')
c('C41','proved','MatRegion.reduce and both vector sweeps, any number >= 1 of matrices, any commutative ring.','C41_region_reduce','C41_sweep_from_left','C41_sweep_from_right')
c('C42','proved','Left edge vector, any list of SingleMat/MatRegion/at most one OutputCore, right edge vector or output matrix; both values of parallel_eval; the global batch size may hold anything before the call.','C42_reduce_in_order','C42_parallel_same')
c('C43','partial','Refuted by the code: ContractableList([]) is accepted and its reduce() raises IndexError; Scalar of a 0-d tensor raises ValueError. Proved: exactly which lists and tensors are accepted.','C43_empty_list_refuted','C43_scalar_refuted','C43_list_checks_partial','C43_scalar_partial')
c('C44','partial','Holds for Contractable, MatRegion, OutputCore, SingleMat and Scalar from both sides; refuted for EdgeVec and OutputMat, where every product with a Scalar raises TypeError.','C44_scale_partial','C44_edge_vec_refuted','C44_output_mat_refuted')
c('C45','partial','Refuted by the code: every product of a nonempty ContractableList with a contractable raises an exception, from either side; the outcome of every such product, for every list and contractable, is proved (C45_exact).','C45_exact','C45_list_product_refuted','C45_error_partial','C45_empty_list_partial')
c('C56','partial','random_zero, unknown methods and malformed bond strings as stated. Refuted: random_eye with r before l and different bond dimensions does not give the identity; min_random_eye raises RuntimeError when init_dim exceeds one of two different bonds. Proved: the stated value in all other cases (l before r, or equal bonds; init_dim fits, or equal bonds); and the exact outcome (every entry, or the exception) for every argument (C56_exact).','C56_exact','C56_random_zero','C56_random_eye_partial','C56_random_eye_default','C56_min_random_eye_partial','C56_unknown_method','C56_bad_bond_string','C56_swapped_bonds_refuted','C56_min_rectangular_refuted')
c('C57','proved','Also: no image of the described kind is missing. Hypothesis: numpy shuffle with a fixed seed applies a permutation that depends only on the number of rows.','C57_load_HV_data')
c('C58','proved','Same hypothesis on numpy shuffle.','C58_joint_shuffle')
c('C46','proved','torch.svd is an argument assumed to return a singular value decomposition of the unfolded matrix; real tensors. Any label sets, sizes, cutoff, max_D.','C46_splits','C46_exact','C46_sv_right')
c('C47','partial','Holds for cutoff > 0. Refuted for cutoff <= 0 with a max_D above the number of singular values: the padded zeros are counted too. Proved for any cutoff: the exact count, the bounds, the zero padding and the Frobenius error. sv_vec receives the spectrum that is padded but not truncated by the cutoff.','C47_rank_partial','C47_rank','C47_rank_bounds','C47_padding','C47_frobenius_error','C47_sv_vec','C47_nonpositive_cutoff_refuted')
c('C30','proved','For every history of calls: whenever forward returns, every row is the contraction of its input row (with label_site=0 and another batch size in the last call the rows are broadcast, C33). It returns for every label_site whose regions do not have exactly one site; exact conditions: C34_works_iff.','C30_open_boundary','C30_open_boundary_returns','C30_label_site')
c('C31','proved','As C30, for every history of calls.','C31_periodic_boundary','C31_periodic_boundary_returns')
c('C32','proved','Every model, input (raw, embedded, routed or malformed) and history: the same exception or the same output.','C32_parallel_eval')
c('C33','partial','False as stated: with label_site=0 the output core is expanded to the batch size of the last call of any model (refuted: exception, or silently a wrong number of rows). Proved: with label_site>0, and for TI_MPS, the result does not depend on the history; the exact outcome for every label_site and history.','C33_no_history_partial','C33_exact_outcome','C33_label_zero_first_call','C33_ti_no_history','C33_history_refuted')
c('C34','partial','False as stated: a region of exactly one site always raises AssertionError (default label site of 2 or 3 inputs). Proved: the constructor accepts every label site, and exactly when a call returns, for every label_site and history.','C34_constructor','C34_one_site_region_fails','C34_works_iff','C34_refuted')
c('C35','proved','List paths; negative entries count from the end; entries out of range raise; a wrong length is rejected.','C35_path','C35_out_of_range','C35_length_checked')
c('C36','proved','Custom maps: nonempty batches (torch.stack of nothing raises).','C36_default','C36_default_needs_two','C36_custom','C36_pre_embedded','C36_register','C36_reset','C36_register_default','C36_register_default_forward','C36_ti_raw','C36_ti_register')
c('C37','proved','Every history; whenever the call for the unmixed input returns, the others return too.','C37_affine')
c('C60','partial','False as stated: a tensor path with two or more entries raises RuntimeError, a tensor with the single entry 0 is ignored. Proved: lists are accepted exactly when empty or of length input_dim; and the exact outcome of the constructor for every path and label_site (C60_exact).','C60_exact','C60_tensor_path_refuted','C60_zero_tensor_ignored','C60_list_path_partial')
c('C38','proved','Any commutative ring; every history; serial and parallel; fixed_ends only ever raises (proved).','C38_ti_forward','C38_constructor','C38_fixed_ends_rejected')
c('C39','partial','False for raw scalar sequences with the default feature map: padding is done before embedding, so a padded site embeds 0 as (0,1) (refuted). Proved: neutral for pre-embedded sequences, and for raw sequences under any feature map that sends 0 to the zero vector; the exact value for raw sequences in general.','C39_padding_neutral_embedded_partial','C39_raw_padded_partial','C39_raw_neutral_partial','C39_raw_refuted')
c('C40','proved','','C40_ragged','C40_stack_embedded','C40_stack_raw','C40_padding_accepts')
c('C48','partial','False as stated: with exactly two input sites on one side of the output every second flip raises AssertionError (e.g. the first flip for input_dim=4 with the default label_site). Proved: exactly those flips fail and all other calls succeed, for every history (hypothesis: torch.svd returns a decomposition, no pair vanishes below the cutoff, no lone core is zero). C48_exact gives the exact outcome (rows, values or exception) of every call in every history, with no hypothesis on the batch size of the last call.','C48_no_crash_partial','C48_two_sites_refuted','C48_flip_partial','C48_exact','C48_exact_met','C48_default_four','C51_default_six')
c('C49','partial','False as stated for input_dim=1 (AssertionError for all arguments). Proved for every input_dim >= 2; and the exact outcome of the constructor for every argument (C49_exact).','C49_exact','C49_two_inputs_partial','C49_one_input_refuted')
c('C50','proved','Both offsets, any parameters, both boundary conditions; the merged list also works where the unmerged one fails (C34).','C50_merge_preserves','C50_same_as_unmerged')
c('C51','proved','For every history, for all flips that do not fail (C48); given that torch.svd returns a decomposition. C51_lossless_exact: without a hypothesis on the batch size of the last call.','C51_lossless_flip','C51_lossless_exact')
c('C52','proved','For every torch.svd and every history.','C52_schedule','C52_flip_iff')
c('C53','partial','Proved for every successful call. Missing: a flip whose contraction then fails (label_site=0 with a changed batch size) leaves the lists as they were although the cores were split: C53_failed_flip_refuted (with C53_failed_flip_met).','C53_bounds','C53_unchanged','C53_flip_partial','C53_flip_exact','C53_failed_flip_refuted')
c('C54','proved','','C54_equal_norms','C54_zero_core')
c('C55','proved','For every torch.svd and every history. Only the norm of unmerged cores of the list that was active is changed in place.','C55_parameters','C55_call')
c('C63','partial','False for ProbUnifMPS.seq_len, which reports input_dim (C63_unif_seq_len_refuted); everything else is proved.','C63_constructed','C63_rejected','C63_embedding_checked','C63_unif_seq_len_refuted')
c('C64','partial','False for complex parameters: phaseify gives the two vectors independent phases, their overlap can vanish and then every call fails (C64_complex_edges_refuted). Proved for real parameters.','C64_real_edges_partial','C64_complex_edges_refuted')
c('C65','proved','','C65_fresh_bias_neutral')
c('C66','proved','','C66_near_eye_uniform')
c('C67','proved','For models without bias and embedding.','C67_gauge_invariance')
c('C68','proved','For models without bias and embedding.','C68_scale_invariance')
c('C69','proved','','C69_uniform_is_repeated')
c('C70','proved','Every embedding; no losslessness hypothesis.','C16_exact_total','C17_exact_total','C13_exact_total')
c('C71','proved','Every history, any torch.svd, any remembered batch size.','C71_returns','C71_waiting','C71_waiting_met')
c('C72','partial','False as stated: a flip that fails in _merge (two sites on one side of the output) has already switched the offset, so that the cores of the previous merge state become active and all training since the last flip is lost (C72_flip_refuted, C72_training_lost, concrete: C72_changes_refuted); with input_dim=4 and the default label_site no call ever returns again (C72_four_forever). Proved: rejected inputs, failing contractions without a flip and failing splits leave the model as it was. Not followed: cores that became NaN.','C72_rejected_partial','C72_contraction_partial','C72_split_partial','C72_flip_refuted','C72_training_lost','C72_changes_refuted','C72_four_forever','C72_four_met')
c('C73','proved','Every history, also with caught exceptions; hypothesis at a flip: torch.svd returns a decomposition, no pair vanishes below the cutoff, no lone core is zero.','C48_exact','C48_exact_met')
c('C74','proved','Any commutative ring.','C33_exact_outcome','C34_works_iff')
c('C75','proved','The rejection also holds with an embedding.','C75_slim_bias_rejected','C75_slim_bias_error')
c('C76','proved','Models without embedding.','C76_mirror')
c('C77','proved','Models without embedding.','C77_conjugation')
c('C78','proved','Models without embedding.','C78_renaming')
c('C79','proved','Models without embedding.','C79_onehot_vectors')
c('C80','proved','Models without embedding.','C80_bond_one')
c('C81','proved','Models without embedding.','C81_log_norm','C81_forward_plus_log_norm')
c('C82','proved','Any commutative ring.','C82_onehot','C82_onehot_documented','C82_onehot_rejects')
c('C83','proved','Any commutative ring.','C83_rows','C83_ti_rows')
c('C84','proved','Any commutative ring.','C84_linear_core','C84_linear_output','C84_ti_linear_ends')
c('C85','proved','Any commutative ring.','C85_fresh_weights','C85_fresh_output','C85_zero_core')
c('C86','proved','Any commutative ring.','C86_gauge')
c('C87','proved','Any commutative ring.','C87_mirror')
c('C88','proved','Any commutative ring.','C88_ti_gauge')
c('C89','proved','Positive matrix sizes (d, e, D > 0).','C89_matseq_log_exact','C89_matseq_value_exact','C89_slim_exact')
c('C90','proved','Exact counterpart of C11; embeddings over discrete domains through the normaliser of C70.','C90_forward_exact','C90_embedded_exact')
c('C91','proved','Exact counterpart of C23 (specification in InputSpec.v). C91_slim_empty covers the inputs C91_every_input excludes.','C91_every_input','C91_wellformed','C91_slim_empty')
c('C92','proved','Model of train_script.py in TrainScript.v; optimiser, data and sampler orders are arbitrary parameters. adaptive_mode=False only.','C92_train_epoch','C92_script','C92_constants')
c('C93','proved','As C92.','C93_test_epoch','C93_order_irrelevant')
c('C94','proved','C91 with an embedding: C94_discrete and C94_interval for any shape, C94_discrete_rows and C94_interval_rows spell out batches of sequences. For empty sequences with slim_eval on a uniform model: C94_slim_empty, C94_slim_empty_interval.','C94_discrete','C94_interval','C94_discrete_rows','C94_interval_rows','C94_slim_empty','C94_slim_empty_interval')
c('C95','proved','C95_forward and C95_ti: any model; C95_value: the models of the constructor, with the contraction of C34 as the exact value; C95_nearest: round to nearest with p bits (Flocq). Sums in the order of the model; feature map values and parameters are taken as given; no overflow or underflow.','C95_forward','C95_ti','C95_value','C95_nearest')
c('C96','proved','','C96_shapes_only','C96_training','C96_ti')
c('C97','proved','','C97_homomorphism','C97_ti')
c('C98','proved','','C98_differentiable','C98_ti')
c('C99','proved','','C99_monotone','C99_ti')
c('C100','proved','optimiser, sampler, torch.svd and data set are arbitrary functions; sizes: output core not at the left end and no side of it with exactly two sites (C48)','C100_train_epoch','C100_test_epoch','C100_script','C100_flips','C100_constants')
c('C101','partial','the claim is false: with the constants of the script the first test batch flips (C101_first_test_refuted, happens for a concrete model: C101_test_flips_met); true when the flips are lossless (C101_lossless_test_partial)','C101_first_test_refuted','C101_lossless_test_partial')
c('C102','proved','real parameters; exact arithmetic; weights, interval, model and inputs arbitrary','C102_mlp_values','C102_mlp_range','C102_discrete_fails','C102_density','C102_density_unit','C102_positive_returns')
c('C103','proved','exact arithmetic (the bounds concern the exact values of the rescaled numbers)','C103_split','C103_in_range','C103_scaling','C103_slim')
c('C104','proved','Riemann integral of Coquelicot; exact arithmetic','C104_lambda','C104_integral','C104_sincos')
c('C105','proved','exact arithmetic','C105_entropy_bound','C105_attained')
c('C106','proved','derivative of Coquelicot; exact arithmetic; autograd itself is not modelled','C106_gradient','C106_loss_gradient','C106_score')
c('C107','proved','real arithmetic; torch.svd is a parameter assumed correct on the matrices of the pairs','C107_flip','C107_bound','C107_cutoff')
c('C108','partial','refuted for adaptive models: the merge offset is not part of the checkpoint (exact outcome proved for all histories); proved for all other models, where a checkpoint is accepted exactly if the dimensions, label site and presence of a bias agree (_strict); state_dict/load_state_dict of torch.nn.Module are modelled from their documentation, strict=True','C108_mps','C108_ti','C108_prob','C108_prob_same','C108_mps_strict','C108_ti_strict','C108_prob_strict','C108_adaptive_exact','C108_adaptive_refuted','C108_fresh_refuted','C108_adaptive_partial')
c('C109','proved','exact real arithmetic; row b of an expanded result comes from the only row of a batch of one (function source)','C109_multilinear','C109_rows','C109_parallel')
c('C110','proved','exact real arithmetic; autograd itself is not modelled: the derivative is that of the function the forward pass computes','C110_gradient','C110_partials','C110_unique','C110_descent','C110_minimum','C110_scale')
c('C111','proved','without embedding; exact arithmetic over the real or complex numbers','C111_capacity','C111_rank','C111_tight')
c('C112','proved','exact arithmetic; no path, no adaptive mode, no embedding','C112_cp','C112_memorise','C112_rank','C112_tight')
c('C113','proved','exact arithmetic; one tensor of sequences of equal length','C113_memorise','C113_rank')
c('C114','proved','exact arithmetic; MPS without adaptive mode; ProbMPS and ProbUnifMPS without embedding or with one over a discrete domain or an interval, slim_eval only without bias','C114_mps','C114_ti','C114_prob','C114_prob_embedded')
c('C115','proved','exact arithmetic; MPS without adaptive mode; TI_MPS without fixed ends; ProbMPS and ProbUnifMPS without embedding or with one over a discrete domain or an interval, slim_eval only without bias; open ends need 1/2','C115_mps','C115_ti','C115_prob','C115_prob_embedded')
c('C116','proved','exact arithmetic; MPS without adaptive mode; ProbMPS and ProbUnifMPS without embedding, slim_eval only without bias','C116_ti','C116_prob')
c('C117','proved','exact arithmetic; MPS without adaptive mode; words (one-hot vectors, letters); ProbMPS and ProbUnifMPS without embedding, slim_eval only without bias','C117_mps','C117_prob')
c('C118','proved','exact real arithmetic, embedded inputs; the contraction used inside an adaptive model is covered (merged modules), a flip in between is not','C118_mps','C118_ti','C118_continuous','C118_ti_continuous','C118_decision')
c('C119','proved','exact arithmetic; ProbMPS and ProbUnifMPS, without embedding or with one over a discrete domain or an interval (then the input itself is fixed), slim_eval only without bias','C119_prob','C119_embedded','C119_loss','C119_loss_embedded')
