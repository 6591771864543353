{"claims": [
  {"property": "C01", "status": "proved", "theorems": ["C01_encrypt_decrypt"], "note": ""},
  {"property": "C02", "status": "proved", "theorems": ["C02_przs_zero"], "note": ""},
  {"property": "C03", "status": "proved", "theorems": ["C03_binary_przs_zero", "C03_binary_encrypt_decrypt"], "note": ""},
  {"property": "C04", "status": "proved", "theorems": ["C04_roundtrip_nonneg", "C04_roundtrip_neg", "C04_decode_neg_iff", "C04_large_negative_wrong", "C04_naive_refuted"], "note": "Exact characterisation; decode of negatives is wrong outside q+r<=s-1 (finding). Floats are exact rationals."},
  {"property": "C05", "status": "proved", "theorems": ["C05_nearest", "C05_overflow_refuted"], "note": "nearest, ties toward zero, on the no-overflow domain; boundary witness"},
  {"property": "C06", "status": "proved", "theorems": ["C06_consistent", "C06_ignore_restores", "C06_ignore_enter"], "note": ""},
  {"property": "C07", "status": "proved", "theorems": ["C07_linear_programs", "C07_linear_tensor_ops", "C07_sum"], "note": ""},
  {"property": "C08", "status": "proved", "theorems": ["C08_mixed_scale_exact", "C08_operand_kept", "C08_memory_effect", "C08_view_corruption_refuted"], "note": "last theorem exhibits the silent corruption of tensors sharing storage with the operand"},
  {"property": "C09", "status": "proved", "theorems": ["C09_beaver_bilinear", "C09_mul_table", "C09_matmul_table", "C09_conv1d_table"], "note": ""},
  {"property": "C10", "status": "proved", "theorems": ["C10_square"], "note": ""},
  {"property": "C11", "status": "proved", "theorems": ["C11_one_party", "C11_two_parties", "C11_many_parties"], "note": "Bounds in the real values; the no-wrap / no-mask-overflow conditions are explicit hypotheses (their probability is not modelled)."},
  {"property": "C12", "status": "proved", "theorems": ["C12_unit_scale", "C12_both_scales", "C12_one_times_one_refuted"], "note": "One unit scale is exact; two different scales above 1 give x*y*sy/sx (one party); refutation for every pair of different scales."},
  {"property": "C13", "status": "proved", "theorems": ["C13_honest_pass", "C13_pass_iff", "C13_half_error", "C13_float_multiplier_blind", "C13_matmul_honest_rejected_refuted"], "note": ""},
  {"property": "C14", "status": "proved", "theorems": ["C14_shares_independent", "C14_unique_mask", "C14_excluded_opening"], "note": ""},
  {"property": "C15", "status": "proved", "theorems": ["C15_one_party", "C15_two_parties", "C15_two_parties_wrapped"], "note": "All share splits; probability of wrapping not modelled."},
  {"property": "C16", "status": "proved", "theorems": ["C16_count_wraps", "C16_naive_refuted"], "note": "Exact including the -2^63 + -2^63 corner, which the code counts wrongly."},
  {"property": "C17", "status": "proved", "theorems": ["C17_wrap_protocol", "C17_eta"], "note": "Exact value of the revealed wrap count for all shares and masks."},
  {"property": "C18", "status": "proved", "theorems": ["C18_truncate", "C18_truncate_pow2", "C18_truncate_general", "C18_wraps_bound", "C18_overflow_refuted"], "note": "For every n; overflow of the mask characterised exactly."},
  {"property": "C19", "status": "proved", "theorems": ["C19_replicated_bilinear", "C19_replicated_square", "C19_replicated_and", "C19_too_few", "C19_four_or_more_refuted"], "note": "Correct with three parties, rejected below three, wrong for every n >= 4 (which the code accepts)."},
  {"property": "C20", "status": "proved", "theorems": ["C20_replicated_truncate", "C20_other_sizes", "C20_wrap_refuted"], "note": "Three parties; no-wrap hypothesis explicit."},
  {"property": "C21", "status": "proved", "theorems": ["C21_xor", "C21_and", "C21_or", "C21_ior", "C21_not", "C21_shl", "C21_shr", "C21_where_public", "C21_where_shared"], "note": "All n>0, any valid provider state; public or shared operand."},
  {"property": "C22", "status": "proved", "theorems": ["C22_add"], "note": "SPK adder with Beaver ANDs, every provider state."},
  {"property": "C23", "status": "proved", "theorems": ["C23_compare"], "note": "eq, ne, lt, le, gt, ge on signed 64-bit words."},
  {"property": "C24", "status": "proved", "theorems": ["C24_sum"], "note": "Any number of summands."},
  {"property": "C25", "status": "proved", "theorems": ["C25_a2b", "C25_a2b_fallback"], "note": "Both the log-round and the sequential fallback path."},
  {"property": "C26", "status": "proved", "theorems": ["C26_b2a", "C26_b2a_full"], "note": "1<=bits<=64; ratio sa // sb."},
  {"property": "C27", "status": "proved", "theorems": ["C27_round_trip", "C27_same_precision", "C27_lower_precision_annihilates"], "note": "Includes the finding that lowering precision yields 0."},
  {"property": "C28", "status": "proved", "theorems": ["C28_order", "C28_other_scale"], "note": "Operand y may be an integer, a float (rounded by the encoder) or an encrypted number of compatible scale."},
  {"property": "C29", "status": "proved", "theorems": ["C29_equality", "C29_two_party_scale_one", "C29_corner_difference"], "note": "The two exceptional behaviours are proved as theorems."},
  {"property": "C30", "status": "proved", "theorems": ["C30_piecewise", "C30_where", "C30_where_float_truncates", "C30_hardtanh"], "note": "where() with a float alternative is shown to lose its fraction."},
  {"property": "C31", "status": "proved", "theorems": ["C31_max", "C31_max_all", "C31_min", "C31_min_all", "C31_other_scale_refuted"], "note": "Number of reduction steps arbitrary; integer square root only assumed to lie strictly between 0 and m."},
  {"property": "C32", "status": "proved", "theorems": ["C32_argmax", "C32_argmin", "C32_argmax_index", "C32_large_scale_refuted"], "note": "All methods, all draws."},
  {"property": "C33", "status": "proved", "theorems": ["C33_rand_range", "C33_rand_uniform"], "note": "Uniformity as a bijection in any one party's draw."},
  {"property": "C34", "status": "proved", "theorems": ["C34_triple", "C34_square", "C34_binary", "C34_wrap", "C34_b2a"], "note": "After any request history from setup; torch.randint range and length assumed."},
  {"property": "C35", "status": "proved", "theorems": ["C35_synchronised", "C35_triple", "C35_square", "C35_binary", "C35_wrap", "C35_b2a", "C35_single_party", "C35_cuda_wrap_stops", "C35_provider", "C35_cuda_scalar_wrap_refuted", "C35_devices"], "note": "Generators are functions of a state; device transfers are not modelled beyond the CPU/CUDA mismatch of the wrap request."},
  {"property": "C36", "status": "proved", "theorems": ["C36_once", "C36_matching", "C36_answers", "C36_save_load"], "note": "Tuples are opaque values from an arbitrary provider; torch.save/load is an exact inverse pair."},
  {"property": "C37", "status": "proved", "theorems": ["C37_restored", "C37_inside", "C37_not_swallowed", "C37_alias_refuted"], "note": "Parsing of values is an oracle; the reported aliasing escape is exhibited."},
  {"property": "C38", "status": "proved", "theorems": ["C38_right_values", "C38_no_deadlock", "C38_terminates"], "note": "All interleavings of queue operations and barrier openings; send/recv not included."},
  {"property": "C39", "status": "proved", "theorems": ["C39_race_refuted", "C39_race_mixed_refuted", "C39_barrier_suffices", "C39_barrier_no_deadlock", "C39_one_source", "C39_one_source_no_deadlock"], "note": "The unrestricted guarantee is refuted; holds with a barrier, and for broadcasts from one source."},
  {"property": "C40", "status": "proved", "theorems": ["C40_seed_ring"], "note": ""},
  {"property": "C41", "status": "proved", "theorems": ["C41_receives_chosen", "C41_too_long", "C41_inconsistent", "C41_other_pad", "C41_pads_differ", "C41_both_messages_refuted"], "note": "SHA-256 is an oracle with 64-character digests; the channel is FIFO."},
  {"property": "C42", "status": "proved", "theorems": ["C42_matmul", "C42_matmul_entry", "C42_conv", "C42_conv_channels_refuted", "C42_avg_pool"], "note": "convolution refuted when the products per output element exceed the float64 range"},
  {"property": "C43", "status": "proved", "theorems": ["C43_pow", "C43_pow_zero"], "note": "p>=0; negative exponents are in C116. Fixed-point bound is for runs whose truncations are within E units."},
  {"property": "C44", "status": "proved", "theorems": ["C44_prod_integer", "C44_prod_fixed", "C44_polynomial_integer", "C44_polynomial_fixed"], "note": "fixed point: magnitudes below 1 - 2E units"},
  {"property": "C45", "status": "proved", "theorems": ["C45_mean", "C45_var", "C45_unbiased_refuted", "C45_keyword_dim_refuted"], "note": "0-dimensional tensors not modelled"},
  {"property": "C46", "status": "proved", "theorems": ["C46_cat", "C46_cat_plain_raises", "C46_mixed_scale_refuted"], "note": "one level of the helper, dim 0"},
  {"property": "C47", "status": "proved", "theorems": ["C47_pad_public", "C47_pad_private", "C47_pool_pad", "C47_pool_pad_refuted"], "note": "one-dimensional padding"},
  {"property": "C48", "status": "proved", "theorems": ["C48_paths"], "note": "for every program of recorded operations with additive local derivatives; non-differentiable arguments must be leaves (see C49_target_refuted)"},
  {"property": "C49", "status": "proved", "theorems": ["C49_accumulates", "C49_second_backward", "C49_shared_refuted", "C49_detach_refuted", "C49_target_refuted"], "note": "separate losses accumulate; second call, shared intermediate, detach_ and shared non-differentiable target lose gradients"},
  {"property": "C50", "status": "proved", "theorems": ["C50_adjoint", "C50_sums", "C50_empty_refuted"], "note": "a size-1 dimension broadcast against an empty one is refuted"},
  {"property": "C51", "status": "proved", "theorems": ["C51_restored", "C51_inside", "C51_one_thread", "C51_threads_refuted"], "note": "nesting with exceptions; the mode is shared by threads, so interleaved blocks of two threads can leave it off"},
  {"property": "C52", "status": "proved", "theorems": ["C52_sgd", "C52_accepted", "C52_others", "C52_error", "C52_threshold", "C52_threshold_overflow_refuted", "C52_update_encrypted", "C52_update_plain_refuted"], "note": "closed form in exact arithmetic, error bound for inexact multiplications, thresholding on shares; gradients whose square overflows pass the threshold; update_parameters scales the stored gradient"},
  {"property": "C53", "status": "proved", "theorems": ["C53_forward", "C53_outputs", "C53_unique", "C53_duplicate_input_refuted", "C53_two_outputs_refuted", "C53_second_output_refuted", "C53_unnamed_output_refuted"], "note": "Modules are arbitrary functions of their input values; the while loop is modelled with fuel and shown to end."},
  {"property": "C54", "status": "proved", "theorems": ["C54_saved", "C54_load", "C54_round_trip", "C54_dotless", "C54_missing", "C54_version", "C54_buffers_refuted", "C54_strict_unexpected_refuted", "C54_not_strict_refuted", "C54_failed_load_refuted", "C54_dotted_refuted"], "note": "Dictionary values are the tensors at the time of saving."},
  {"property": "C55", "status": "proved", "theorems": ["C55_order", "C55_completes", "C55_deadlock_refuted", "C55_length_refuted"], "note": "Rank order for every interleaving that the parent survives; executions end iff the pickled results fit into the queue (the parent joins before reading), so large return values hang; an unpicklable value is dropped and shifts later ranks."},
  {"property": "C56", "status": "proved", "theorems": ["C56_find", "C56_calls", "C56_names", "C56_monotone", "C56_hooks", "C56_builtin_class_refuted", "C56_hooks_refuted"], "note": "Ordinary classes: not in builtins, no quote in the name. Values are modelled by provenance."},
  {"property": "C57", "status": "proved", "theorems": ["C57_party", "C57_system", "C57_quiet", "C57_stops", "C57_broadcast_obj_refuted", "C57_ttp_refuted", "C57_keyword_root_refuted", "C57_positional_batched_refuted", "C57_one_party_refuted"], "note": "The message pattern of all_reduce is the ring of the code's comment; sizes of objects are those of sys.getsizeof."},
  {"property": "C58", "status": "proved", "theorems": ["C58_public", "C58_epochs", "C58_epochs_refuted", "C58_encrypted_refuted", "C58_encrypted_private_refuted", "C58_layer_estimation", "C58_noise_src_refuted"], "note": "Encrypted values are modelled by the rationals they stand for."},
  {"property": "C59", "status": "proved", "theorems": ["C59_weighted_index", "C59_interval"], "note": ""},
  {"property": "C60", "status": "proved", "theorems": ["C60_max", "C60_mean", "C60_divides", "C60_near", "C60_refuted"], "note": "C60_max and C60_mean hold whenever the float64 boundaries are right (boundaries_right); C60_divides and C60_near say when they are; C60_refuted exhibits 29 -> 7. Averages in exact rational arithmetic."},
  {"property": "C61", "status": "proved", "theorems": ["C61_windows", "C61_asymmetric_refuted", "C61_backward", "C61_backward_ceil", "C61_backward_ceil_refuted"], "note": "Padding equal in both dimensions for C61_windows; the backward pass per plane."},
  {"property": "C62", "status": "proved", "theorems": ["C62_square_validation", "C62_mul_validation"], "note": "validation comparison taken exactly (code compares float32)"},
  {"property": "C63", "status": "proved", "theorems": ["C63_reorder", "C63_reshape", "C63_select", "C63_reduce", "C63_left", "C63_right", "C63_lists", "C63_negative_dim_refuted", "C63_crop_refuted", "C63_trace_refuted", "C63_take_repeated_refuted", "C63_negative_start_refuted"], "note": "elements are exact integers; the listed argument combinations are refuted"},
  {"property": "C64", "status": "proved", "theorems": ["C64_matrices", "C64_vectors", "C64_dot", "C64_ger", "C64_vector_batch_refuted", "C64_batch_vector_refuted"], "note": "batch dimensions of size 1 against 0 excluded (C50_empty_refuted)"},
  {"property": "C65", "status": "proved", "theorems": ["C65_conv", "C65_avg_pool", "C65_groups_refuted"], "note": "Both gradients of conv1d/conv2d (one model over a list of spatial dimensions) and of avg_pool2d are exact adjoints for every geometry; grouped convolutions with several channels per group raise in backward."},
  {"property": "C66", "status": "proved", "theorems": ["C66_relu", "C66_relu_value", "C66_abs", "C66_sign", "C66_tanh", "C66_sigmoid", "C66_exp", "C66_log", "C66_reciprocal", "C66_sqrt", "C66_square", "C66_sin", "C66_cos", "C66_hardtanh", "C66_hardtanh_equal", "C66_relu6", "C66_dropout", "C66_feature_dropout", "C66_dropout_eval", "C66_div", "C66_div_public", "C66_rdiv", "C66_polynomial", "C66_polynomial_coefficients_refuted", "C66_polynomial_empty", "C66_pow", "C66_pow_refuted", "C66_pos_pow_whole", "C66_pos_pow_value", "C66_pos_pow_refuted"], "note": "Ideal real arithmetic: fixed-point rounding and the error of the approximations are not part of the model. Uses the axioms of Coq's real numbers."},
  {"property": "C67", "status": "proved", "theorems": ["C67_softmax_value", "C67_softmax", "C67_log_softmax", "C67_softmax_0d", "C67_binary_cross_entropy", "C67_binary_cross_entropy_with_logits", "C67_rappor", "C67_rappor_zero_refuted", "C67_cross_entropy", "C67_cross_entropy_refuted"], "note": "Ideal real arithmetic, as C66. Uses the axioms of Coq's real numbers."},
  {"property": "C68", "status": "proved", "theorems": ["C68_mean_value", "C68_mean", "C68_var_true", "C68_var_false", "C68_var_refuted", "C68_var", "C68_max_value", "C68_max", "C68_max_ties", "C68_min_value", "C68_min", "C68_norm2", "C68_norm1", "C68_normp", "C68_norm5_refuted", "C68_norm2_first", "C68_norm2_raises_refuted", "C68_norm2_square_refuted", "C68_cosine", "C68_cosine_size1", "C68_cosine_negative_refuted", "C68_cosine_negative"], "note": "ideal reals; theorems with suffix _refuted exhibit the failures"},
  {"property": "C69", "status": "proved", "theorems": ["C69_train_value", "C69_train", "C69_eval", "C69_running", "C69_running_refuted"], "note": "ideal reals; C69_running_refuted: running variance"},
  {"property": "C70", "status": "proved", "theorems": ["C70_exp", "C70_limit", "C70_far_refuted"], "note": "over the reals: rounding and overflow of the fixed-point arithmetic are not modelled"},
  {"property": "C71", "status": "proved", "theorems": ["C71_error", "C71_converges", "C71_domain", "C71_far_refuted", "C71_default", "C71_log_iters_refuted"], "note": "over the reals: rounding and overflow of the fixed-point arithmetic are not modelled"},
  {"property": "C72", "status": "proved", "theorems": ["C72_error", "C72_converges", "C72_initial_refuted", "C72_domain", "C72_negative_refuted", "C72_slow_refuted"], "note": "over the reals: rounding and overflow of the fixed-point arithmetic are not modelled"},
  {"property": "C73", "status": "proved", "theorems": ["C73_polar", "C73_modulus", "C73_error", "C73_near", "C73_limit", "C73_large_refuted", "C73_zero_refuted"], "note": "over the reals: rounding and overflow of the fixed-point arithmetic are not modelled"},
  {"property": "C74", "status": "proved", "theorems": ["C74_range", "C74_one_refuted", "C74_in_01", "C74_rest"], "note": "over the reals: rounding and overflow are not modelled; the bound is proved by verified interval arithmetic (Enclose.v) evaluated by vm_compute"},
  {"property": "C75", "status": "proved", "theorems": ["C75_sigmoid", "C75_tanh", "C75_zero_refuted", "C75_symmetric", "C75_far_refuted"], "note": "over the reals: rounding and overflow of the fixed-point arithmetic are not modelled"},
  {"property": "C76", "status": "proved", "theorems": ["C76_polynomials", "C76_terms", "C76_nodes"], "note": "over the reals: rounding and overflow of the fixed-point arithmetic are not modelled"},
  {"property": "C77", "status": "proved", "theorems": ["C77_short", "C77_two_refuted", "C77_odd_refuted"], "note": "over the reals: rounding and overflow of the fixed-point arithmetic are not modelled"},
  {"property": "C78", "status": "proved", "theorems": ["C78_total", "C78_single", "C78_softmax", "C78_many_refuted", "C78_log_softmax"], "note": "over the reals: rounding and overflow of the fixed-point arithmetic are not modelled"},
  {"property": "C79", "status": "proved", "theorems": ["C79_exp", "C79_one_party", "C79_default", "C79_negative", "C79_overflow_refuted"], "note": "rounding of all share operations included; a run is assumed to have truncations within E units (always true with one party and E = 1). Overflow refuted by C79_overflow_refuted"},
  {"property": "C80", "status": "proved", "theorems": ["C80_error", "C80_default", "C80_one_party", "C80_far_refuted"], "note": "rounding of all share operations included; runs with truncations within E units (always with one party and E = 1). The documented range is narrowed by C80_far_refuted"},
  {"property": "C81", "status": "proved", "theorems": ["C81_sigmoid", "C81_tanh", "C81_default", "C81_one_party", "C81_refuted"], "note": "rounding of all share operations included; runs with truncations within E units (always with one party and E = 1). Exactness at 0 and the range refuted by C81_refuted"},
  {"property": "C82", "status": "proved", "theorems": ["C82_encrypt", "C82_again", "C82_round_trip", "C82_late_child_refuted", "C82_buffer_refuted", "C82_tied_refuted"], "note": "tensors are abstract values, local to each party when in plaintext; object identity of parameters is modelled. Three plausible strengthenings are refuted"},
  {"property": "C83", "status": "proved", "theorems": ["C83_train", "C83_history", "C83_frozen_refuted", "C83_freeze_refuted"], "note": "the inverse deviation is any function of the running variance, one for plaintext and one for encrypted tensors"},
  {"property": "C84", "status": "proved", "theorems": ["C84_slice", "C84_slice_default", "C84_slice_inputs", "C84_slice_empty_refuted", "C84_slice_end_refuted", "C84_expand", "C84_expand_keeps", "C84_expand_more", "C84_expand_refuted", "C84_flatten", "C84_flatten_none", "C84_reshape", "C84_reshape_zero_refuted", "C84_gather", "C84_gather_default", "C84_gather_default_refuted"], "note": "PyTorch's narrow, expand, view and advanced indexing are trusted models; ONNX's operators are the specification."},
  {"property": "C85", "status": "proved", "theorems": ["C85_pad", "C85_pad_uniform", "C85_pad_refuted", "C85_conv", "C85_conv_refuted", "C85_avg_pool", "C85_kernel_refuted", "C85_dilation_refuted", "C85_clip", "C85_clip_refuted", "C85_equal", "C85_equal_refuted", "C85_cast_refuted"], "note": "Average pooling is compared with count_include_pad = 1. torch.onnx's table of scalar types is trusted."},
  {"property": "C86", "status": "proved", "theorems": ["C86_import", "C86_missing_refuted", "C86_twice_refuted", "C86_default_refuted", "C86_identity_refuted"], "note": "The agreement of each module with its operator is a hypothesis here and the subject of C84 and C85. Reading the protobuf file is not modelled."},
  {"property": "C87", "status": "proved", "theorems": ["C87_simulation", "C87_no_reveal", "C87_all_but_one", "C87_same_outputs", "C87_mul", "C87_square", "C87_and", "C87_b2a", "C87_wraps", "C87_product"], "note": "Draws are taken as independent and uniform over all 64-bit integers; every message is given to everybody; the values fixed for the zero sharings are arbitrary"},
  {"property": "C88", "status": "proved", "theorems": ["C88_ring", "C88_exactly", "C88_one_party", "C88_neighbours", "C88_only_sum_refuted", "C88_tfp_neighbours", "C88_tfp_first"], "note": "The generators are arbitrary deterministic machines; for the distribution statement the shared numbers are independent and uniform"},
  {"property": "C89", "status": "proved", "theorems": ["C89_product", "C89_operand", "C89_square", "C89_hidden_refuted"], "note": ""},
  {"property": "C90", "status": "proved", "theorems": ["C90_pytorch", "C90_frame", "C90_apart", "C90_broadcast_setitem", "C90_broadcast_inplace", "C90_stale", "C90_setitem_scale", "C90_any_program_refuted"], "note": "every addition of a public tensor whose shape makes self broadcast leaves expanded shares at all parties but party 0"},
  {"property": "C91", "status": "proved", "theorems": ["C91_tensor", "C91_module", "C91_buffers_refuted", "C91_type", "C91_arguments", "C91_source_fails_refuted", "C91_transcript", "C91_save_from_party", "C91_print_in_order", "C91_save", "C91_save_shared_refuted", "C91_print_to"], "note": "C91_buffers_refuted, C91_source_fails_refuted and C91_save_shared_refuted show where the expected behaviour fails"},
  {"property": "C92", "status": "proved", "theorems": ["C92_sum", "C92_product", "C92_extremes", "C92_bits", "C92_outcome", "C92_ends", "C92_all_reduce", "C92_all_reduce_batched", "C92_reduce", "C92_gather", "C92_all_gather", "C92_broadcast", "C92_scatter", "C92_barrier", "C92_mismatch", "C92_objects", "C92_large_refuted", "C92_broadcast_obj", "C92_source_fails_refuted", "C92_gather_type_refuted", "C92_scatter_alone_refuted"], "note": "C92_large_refuted, C92_source_fails_refuted, C92_gather_type_refuted and C92_scatter_alone_refuted show where the expected behaviour fails"},
  {"property": "C93", "status": "proved", "theorems": ["C93_program", "C93_one_party", "C93_network", "C93_prediction", "C93_unchecked_refuted"], "note": "One Beaver triple per product instead of one triple of tensors per operation. Runs with a truncation off by E units or more are excluded by the hypothesis (when that happens is the subject of C15 and C18). C93_unchecked_refuted shows that the analysis cannot be left out."},
  {"property": "C94", "status": "proved", "theorems": ["C94_cossin", "C94_cos_sin", "C94_one_party", "C94_default", "C94_far_refuted"], "note": "Complete for one element; a run is followed through the check that each truncation is off by less than E units (always true for one party with E = 1). Uses the axioms of the standard library's real numbers."},
  {"property": "C95", "status": "proved", "theorems": ["C95_tapes", "C95_fraction", "C95_two_parties", "C95_masks", "C95_program_two", "C95_program_many"], "note": "Not covered: max and argmax; with two parties also products by public numbers and divisions by integers, whose operand's sharing is not refreshed. Only the draws on the tape are counted; every other random value is arbitrary."},
  {"property": "C96", "status": "proved", "theorems": ["C96_relu", "C96_hardtanh", "C96_hardtanh_integral", "C96_hardtanh_refuted", "C96_hardtanh_equal", "C96_relu6", "C96_mul_int", "C96_mul_int_one", "C96_mul_int_refuted", "C96_pow", "C96_pow_differs", "C96_min", "C96_min_index", "C96_max"], "note": "exceptions are stated as theorems: the corner of relu, fractional bounds of hardtanh (C96_hardtanh_refuted), multiplication by an int (C96_mul_int_refuted), pow from 5 on (C96_pow_differs), min and max asked for an index. pow with p <= 1 (needs reciprocal, or is a multiplication by one) and the rounding of Python floats to float32 are left out."},
  {"property": "C97", "status": "proved", "theorems": ["C97_bernoulli", "C97_bernoulli_function", "C97_bernoulli_public", "C97_weighted_sample", "C97_dropout", "C97_dropout_integer", "C97_dropout_cases", "C97_dropout_tracked", "C97_eval_refuted"], "note": "q = 1 outside training is refuted (C97_eval_refuted). Kept elements are stated for runs in which truncations stay within E units (their probability is C95); integer tensors need no such hypothesis."},
  {"property": "C98", "status": "proved", "theorems": ["C98_softmax", "C98_one_party", "C98_single", "C98_many_refuted"], "note": "rounding of all share operations included; default configuration, one line along the dimension; long lines refuted by C98_many_refuted"},
  {"property": "C99", "status": "proved", "theorems": ["C99_values", "C99_gradient", "C99_entries", "C99_loss", "C99_untracked", "C99_descent", "C99_target_refuted"], "note": "over real numbers: rounding and the errors of approximations are the subject of C71 to C81 and C93; the gradient functions that write to their saved tensors are run once"},
  {"property": "C100", "status": "proved", "theorems": ["C100_call", "C100_static", "C100_in_place", "C100_in_place_refuted", "C100_silent_refuted", "C100_no_error", "C100_keyword_refuted", "C100_operators", "C100_operators_refuted", "C100_alignment", "C100_alignment_refuted", "C100_which", "C100_protected", "C100_required", "C100_rsub"], "note": "which function computes the value and what is recorded, not the values; the tables of names are transcribed"},
  {"property": "C101", "status": "proved", "theorems": ["C101_roots", "C101_default", "C101_one_party", "C101_iterations", "C101_far_refuted"], "note": "Runs in which a truncation wraps around are excluded by the check (within E), as in C79."},
  {"property": "C102", "status": "proved", "theorems": ["C102_polynomial", "C102_one_party", "C102_room_refuted"], "note": "horner is an independent specification; C44 has the case of numbers of size at most 1 and of integer and encrypted coefficients"},
  {"property": "C103", "status": "proved", "theorems": ["C103_log", "C103_one_party", "C103_in_01", "C103_log_softmax", "C103_log_softmax_one", "C103_single", "C103_far_refuted", "C103_settings"], "note": "on top of C74 (the method itself), C79 (exp), C98 (the exponentials of a line) and C102 (the polynomial); the noise of the two iterations is bounded by interval arithmetic over pieces of the range, checked by computation"},
  {"property": "C104", "status": "proved", "theorems": ["C104_erf", "C104_one_party", "C104_taylor", "C104_method", "C104_negative_refuted", "C104_far_refuted"], "note": "the error function is specified by its derivative, and an example shows that it exists"},
  {"property": "C105", "status": "proved", "theorems": ["C105_everywhere", "C105_tanh", "C105_sigmoid", "C105_truncated_refuted"], "note": "over the reals (model Approx.v); remainder of interpolation by repeated use of Rolle's theorem, |tanh^(n)| <= n!"},
  {"property": "C106", "status": "proved", "theorems": ["C106_tanh", "C106_sigmoid", "C106_one_party", "C106_terms", "C106_coefficients", "C106_default", "C106_far_refuted"], "note": "The float coefficients of chebyshev_series are a parameter with accuracy g; C106_coefficients shows a list of rationals that meets it for 32 terms. One element per run."},
  {"property": "C107", "status": "proved", "theorems": ["C107_reciprocal", "C107_all_pos", "C107_in_01", "C107_one_party", "C107_far_refuted", "C107_settings"], "note": "Configured initial values are not covered here (C81 covers the one sigmoid uses); accuracy statements are for the default iteration counts."},
  {"property": "C108", "status": "proved", "theorems": ["C108_program", "C108_training", "C108_one_party", "C108_hints", "C108_gradient", "C108_descent", "C108_gate_refuted"], "note": "The analysis is computable and sound; hints read off the exact values are true (C108_hints)."},
  {"property": "C109", "status": "proved", "theorems": ["C109_norm1", "C109_norm_inf", "C109_norm2", "C109_cosine", "C109_cosine_one", "C109_batchnorm_eval", "C109_batchnorm_train", "C109_one_party", "C109_far_refuted", "C109_eps_dropped", "C109_small_variance_refuted"], "note": "Default configuration (exp_iterations 8, sqrt_nr_iters 3, 16 bits of precision); norms with other exponents are not covered on shares; the refuted theorems show the failures outside of the ranges."},
  {"property": "C110", "status": "proved", "theorems": ["C110_training"], "note": "Combines the count of C95 with the analysis of C108; only the masks of truncation are counted, other randomness is arbitrary."},
  {"property": "C111", "status": "proved", "theorems": ["C111_l1", "C111_bce", "C111_bce_gradient", "C111_bce_logits", "C111_one_party", "C111_cross_entropy", "C111_cross_entropy_one_party", "C111_one_example", "C111_far_refuted", "C111_one_example_refuted"], "note": "Builds on C81, C98, C103 and C107; adds Newton's reciprocal for 30 < x <= 64, which input_in_01 needs. The error of the loss with logits and of cross entropy is that of the saturating sigmoid and softmax (C81, C98)."},
  {"property": "C112", "status": "proved", "theorems": ["C112_step", "C112_training", "C112_loss", "C112_one_party", "C112_moderate", "C112_small_rate_refuted"], "note": "Builds on C81 (sigmoid) and C111. Momentum, weight decay, grad_threshold and mini-batches are not covered. The reported losses are covered by C111."},
  {"property": "C113", "status": "proved", "theorems": ["C113_memory", "C113_gradient", "C113_accumulates", "C113_views", "C113_clones", "C113_transpose", "C113_split", "C113_reused", "C113_clone_refuted"], "note": "Refines C48 and C49 to memory. Which backward functions return views is read off gradients.py; transposition, splitting and cloning are proved to fit, the other views by C113_views. Broadcasting inside add_ does not occur with gradients of the size of the tensor."},
  {"property": "C114", "status": "proved", "theorems": ["C114_setup", "C114_zero_shares", "C114_encrypt", "C114_right", "C114_completes", "C114_two_threads", "C114_decrypt_refuted", "C114_masks", "C114_masks_refuted", "C114_overtaken_refuted", "C114_binary", "C114_binary_right", "C114_binary_two_threads", "C114_binary_refuted", "C114_two_safe", "C114_two_ends", "C114_two_fair"], "note": "Contrast with C01 and C02, where every party is a process with its own generators. A step is one statement of a thread; a draw is atomic, as torch locks generators. That an order of steps is possible is read off the code (no lock or barrier in the initialisation), not tried."},
  {"property": "C115", "status": "proved", "theorems": ["C115_both", "C115_one_party", "C115_zero", "C115_slope", "C115_every", "C115_bounds", "C115_zero_refuted"], "note": "Reciprocal by the default method (Newton-Raphson); skip_forward not modelled. The result is given for runs whose products stay in the range of truncation, as in C111. C115_zero_refuted: at alpha = 0 the documented formula does not hold."},
  {"property": "C116", "status": "proved", "theorems": ["C116_negative", "C116_inverse_square", "C116_inverse", "C116_other", "C116_refuted"], "note": "Exponents below -2 only for numbers whose reciprocal stays below 1, as for the powers of C43. The truncations of a run with several parties are assumed within E units; the error of the reciprocal is that of C107."},
  {"property": "C117", "status": "proved", "theorems": ["C117_pos_pow", "C117_whole", "C117_refuted"], "note": "Floats are rational numbers. Exponents that are public tensors are not modelled. The truncations of a run with several parties are assumed within E units; the error of the logarithm is that of C103."},
  {"property": "C118", "status": "proved", "theorems": ["C118_norm", "C118_norm_int", "C118_refused", "C118_refuted"], "note": "Floats are rational numbers and 1/p is exact. Exponents 1, 2 and infinity are in C109. An int exponent is covered for elements below 1 only, as in C43."}
]}
