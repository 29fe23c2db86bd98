{"claims": [
 {"property": "C01", "status": "proved", "theorems": ["C01_order_sound_and_complete", "C01_order_deterministic", "C01_producer_after_reader_refuted"], "note": "Completeness requires that a result key is not read before it is declared; the refuted example shows what happens otherwise."},
 {"property": "C02", "status": "proved", "theorems": ["C02_generated_code_computes_the_model", "C02_pipeline", "C02_output_alias_of_static_scalar_refuted", "C02_reserved_output_key_refuted", "C02_key_named_params_refuted", "C02_registered_primitive_shadowed_refuted"], "note": "Under the naming conditions names_ok and structural conditions shape_ok, which C02_pipeline derives from the declared operators; five refuted theorems show what goes wrong without them. Argument selection (prepare_function_args) enters as p_args."},
 {"property": "C03", "status": "proved", "theorems": ["C03_no_collision", "C03_each_variable_written_once", "C03_collision_refuted"], "note": "The collision without the proviso is C03_collision_refuted."},
 {"property": "C04", "status": "proved", "theorems": ["C04_pruning_preserves_outputs", "C04_key_named_output_refuted", "C04_key_containing_cache_refuted", "C04_key_with_dash_refuted"], "note": "Under the naming conditions of the record clean_names and a sound value comparison; three refuted examples show wrong merges without them. Matching of data edges and re-running of the constraint solver after a merge are not modelled."},
 {"property": "C05", "status": "proved", "theorems": ["C05_signature_exact", "C05_value_comparison_sound", "C05_value_comparison_refuted"], "note": "Exact for a comparison that decides equality; the comparison in the code is sound for values of the same kind and the refuted example shows mixed-kind constants being identified."},
 {"property": "C06", "status": "proved", "theorems": ["C06_folding_agrees_with_evaluation", "C06_pipeline", "C06_pipeline_plain", "C06_solver_value_keeps_operator_refuted"], "note": "For every pop order, every sound constraint-solver oracle and state keys that are not operator results; includes termination, completeness and composition with pruning and code generation. The refuted theorem shows that a solver-found value leaves its operator behind and the generated code may then read a deleted variable. Argument reorganisation and dtype conversion are part of the operator interpretation."},
 {"property": "C07", "status": "proved", "theorems": ["C07_discard_removes_exactly_the_useless", "C07_discarded_input_with_consumer_refuted", "C07_discarded_output_with_alias_refuted"], "note": "For every well-formed acyclic graph, every pop order and every discard set whose given-up keys have no kept consumer: the removed keys are exactly the useless ones and kept outputs evaluate as before. Two refuted theorems show what happens otherwise: a discarded input with consumers leaves an operator with a missing argument; discarding an output that another output is an alias of removes the shared operator. strict_keys (used only with update_graph=False callers) is not modelled."},
 {"property": "C08", "status": "proved", "theorems": ["C08_chain_rule", "C08_gradients_are_vjp", "C08_output_gradients_required", "C08_key_named_cache_refuted", "C08_shared_output_gradient_refuted", "C08_caller_arrays_unchanged_refuted", "C08_missing_output_gradient_refuted", "C08_output_named_like_primitive_refuted", "C08_scalar_read_twice_refuted", "C08_extra_output_gradient_refuted"], "note": "evaluate_gradients of the manual-gradient backend: the wrapper that sets up the gradient dictionary, the generated program and its execution with in-place updates of array objects. Any commutative monoid of gradients, any pullback functions. Second theorem: the result is the vector-Jacobian product, for any tangents consistent with the pullbacks. The conditions in the record 'setting' exclude the seven refuted situations. Shapes are not modelled (accumulate_grads is an uninterpreted function here, see C09)."},
 {"property": "C09", "status": "proved", "theorems": ["C09_axes", "C09_sums_over_copies", "C09_transposes_broadcasting", "C09_empty_batch_refuted"], "note": "accumulate_grads of the numpy core over arrays of any element type with an associative addition; the result is the transpose of broadcasting. Refuted for extent 1 broadcast to extent 0 (raises)."},
 {"property": "C10", "status": "proved", "theorems": ["C10_slices_tile", "C10_gradient_transposes_concat", "C10_gradient_transposes_flat_concat"], "note": "calc_input_slices and concat_grad, with and without an axis, negative axes; the gradient is the transpose of concatenation."},
 {"property": "C11", "status": "proved", "theorems": ["C11_fresh_key"], "note": ""},
 {"property": "C12", "status": "proved", "theorems": ["C12_every_submodel_named", "C12_names_distinct"], "note": "get_unique_submodel_names, any list of submodels."},
 {"property": "C13", "status": "proved", "theorems": ["C13_names", "C13_distinct_iff", "C13_distinct_refuted"], "note": "define_unique_names; exact condition for distinctness, and a collision."},
 {"property": "C14", "status": "proved", "theorems": ["C14_sound", "C14_exact_on_chains", "C14_forward", "C14_second_input_refuted", "C14_merge_refuted", "C14_recursion_limit_refuted"], "note": "Soundness, completeness on chains and the converse for fresh outputs; the three gaps of the check are proved as refutations. The connection-level dependency map is modelled, not the shape/type work done by extend."},
 {"property": "C15", "status": "proved", "theorems": ["C15_topological", "C15_from_start", "C15_two_outputs_refuted"], "note": "Acyclicity is needed between submodels, not connections: a submodel with two independent outputs is the refuted case."},
 {"property": "C16", "status": "proved", "theorems": ["C16_one_role", "C16_effects", "C16_effect_deterministic", "C16_merge_three_refuted", "C16_merge_not_atomic_refuted", "C16_dollar_name_refuted"], "note": "Histories of attach/role/rename/remove/canonical/merge calls; iteration order of the set of connections of one edge is insertion order (true in CPython for small sets of objects). Findings: merging three connections under the name of the last one, non-atomic failed merge, names starting with a dollar sign."},
 {"property": "C17", "status": "proved", "theorems": ["C17_bimap_bijection", "C17_bimap_assignment", "C17_bimap_deletion", "C17_bimap_construction"], "note": ""},
 {"property": "C18", "status": "proved", "theorems": ["C18_inverse_exact", "C18_no_empty_postings", "C18_assignment", "C18_deletion", "C18_nonlist_assignment_corrupts_refuted"], "note": "Non-list assignment is shown to corrupt the inverse (refuted example)."},
 {"property": "C19", "status": "proved", "theorems": ["C19_no_duplicates", "C19_membership", "C19_update_order", "C19_discard_order", "C19_pop_is_latest", "C19_remove_missing", "C19_copy_ops", "C19_relations", "C19_symmetric_difference_duplicates_refuted", "C19_intersection_order_refuted"], "note": "Symmetric difference and intersection deviate from a duplicate-free ordered set in the refuted examples."},
 {"property": "C20", "status": "proved", "theorems": ["C20_members_exact", "C20_domain", "C20_same_object"], "note": ""},
 {"property": "C21", "status": "proved", "theorems": ["C21_intersection", "C21_order_independent", "C21_monotone"], "note": "All sequences of recorded sets (None, an integer or a set), in any order."},
 {"property": "C22", "status": "proved", "theorems": ["C22_denotation", "C22_possible_values", "C22_value", "C22_error", "C22_same_dimension", "C22_stale_after_reduction_refuted"], "note": "Histories of creation, updates, unifications, attachment to shapes and the referee reduction of the solver; the refuted theorem shows a dimension dropped by that reduction."},
 {"property": "C23", "status": "proved", "theorems": ["C23_match", "C23_match_dims", "C23_set_values", "C23_merge", "C23_combine", "C23_match_crossing_refuted", "C23_match_same_variadic_refuted"], "note": "For every session of creations and unifications: a successful match keeps every combination of concrete shapes that makes both equal, adds none, and forces equality unless prefix and suffix cross; failures mean no common shape; set_values, matching with a list of dimensions, node merge and node combine are exact; crossing representations are refuted to become equal. Variadics with recorded possible values are not modelled."},
 {"property": "C24", "status": "proved", "theorems": ["C24_sound", "C24_known_inputs", "C24_completion", "C24_check_raises", "C24_early_completion_refuted"], "note": "Dimension inference, completion test and final check of two-input broadcasting, also with unknown ranks; the refuted theorem shows that the completion report alone does not imply the equation, the final check does. Unification of whole shapes around it is not modelled."},
 {"property": "C25", "status": "proved", "theorems": ["C25_sound", "C25_forward", "C25_concrete", "C25_backward", "C25_done", "C25_all", "C25_backward_axis_zero_refuted", "C25_negative_axis_accepted_refuted", "C25_unknown_axis_rejected_refuted", "C25_keepdim_rank_rejected_refuted", "C25_index_error_refuted", "C25_done_too_early_refuted"], "note": "Soundness for every knowledge of axis and keepdim in every reachable state; exactness when the rank of the input is known, when the rank of the output is known (for axes for which that direction is right, hypothesis fine), when both are unknown and the rule reports completion, and over all axes. Findings: axis 0 from the output alone puts the dimension last; too negative axes are accepted; valid arguments rejected when only the output is known; IndexError; completion reported too early."},
 {"property": "C26", "status": "proved", "theorems": ["C26_length", "C26_pool_1d", "C26_pool_2d", "C26_conv_1d", "C26_conv_2d", "C26_channels_not_divisible_refuted", "C26_stride_zero_refuted", "C26_negative_stride_refuted", "C26_status_index_error_refuted"], "note": "Length of an axis = number of positions at which the window fits, rejected exactly when there is none; the pooling and convolution rules on symbolic shapes sound for every knowledge of the arguments in every reachable state, exact per axis once its inputs are known, done exactly when determined; channels of grouped convolutions. Findings: input channels not divisible by groups accepted, stride zero ends in ZeroDivisionError, negative strides accepted, IndexError in the status of the one-dimensional rule."},
 {"property": "C27", "status": "proved", "theorems": ["C27_length", "C27_quotient", "C27_declared", "C27_rule", "C27_waits", "C27_large_refuted", "C27_declared_direction_refuted", "C27_empty_refuted", "C27_length_forgotten_refuted"], "note": "Length = number of elements for integers with distance below 2^53 (division modelled as rounding to doubles), least integer above the quotient for any double; declaration by the constructor; rule sound and (for a declared rank) exact on symbolic shapes in every session. Findings: wrong beyond 2^53 and for huge steps, constructor does not check the direction, empty ranges get rank zero or are rejected, length forgotten when the rank of the output is unknown."},
 {"property": "C28", "status": "proved", "theorems": ["C28_sound", "C28_forward", "C28_backward", "C28_unvalued", "C28_floor_refuted", "C28_shared_refuted", "C28_negative_refuted", "C28_empty_refuted", "C28_scalar_refuted", "C28_large_refuted", "C28_unvalued_refuted"], "note": "Rule on symbolic shapes: sound in every session (no possible combination of non-empty shapes below 2^53 elements lost, none invented, errors only when impossible, status right); known input: output becomes the unique shape asked for, or error; one missing input dimension found when divisible and not already tied to the output; shape unknown: nothing changes and sizes compared from rank two. Findings: floor division accepts non-divisible sizes, tied dimensions escape the comparison, negative dimensions from two -1s, from -1 beside unknown entries and from negative entries, ZeroDivisionError for empty arrays, scalars not compared, rounding beyond 2^53, wrong comparison / AttributeError / TypeError while the shape is unknown."},
 {"property": "C29", "status": "proved", "theorems": ["C29_total", "C29_sound", "C29_complete", "C29_none", "C29_symmetric", "C29_unchanged", "C29_isinstance", "C29_empty_refuted", "C29_tuple_refuted", "C29_dict_refuted", "C29_tbd_refuted", "C29_isinstance_refuted", "C29_isinstance_empty_refuted"], "note": "Soundness and termination for all well-formed type expressions; completeness, symmetry and 'None only without shared member' for values without empty containers and for types built from classes, unions, list, tuple, Tensor, Sequence, without ToBeDetermined inside unions or tensors, and not mixing a bare tuple with Sequence: outside, five findings show it fails. Sets are visited in one fixed order."},
 {"property": "C30", "status": "proved", "theorems": ["C30_rectangular", "C30_ragged_rejected", "C30_inner_ragged_refuted", "C30_empty_refuted"], "note": "Values other than strings; rectangular nestings without empty containers. Two refuted theorems: raggedness below the first level is accepted with the shape of the last item, and an empty list fails with an unbound variable."},
 {"property": "C31", "status": "proved", "theorems": ["C31_dominant", "C31_raises", "C31_subclass_refuted"], "note": "Values other than strings. The refuted theorem: an instance of a subclass of a number type (numpy scalar) ends the scan, so a later non-number does not raise."},
 {"property": "C32", "status": "proved", "theorems": ["C32_valid", "C32_complete", "C32_order_refuted"], "note": "positive mesh entries; completeness when the mesh entries form a divisibility chain"},
 {"property": "C33", "status": "proved", "theorems": ["C33_binding", "C33_exact", "C33_prepared", "C33_container_refuted", "C33_shared_refuted", "C33_ignored_refuted"], "note": "up to defaults that compare equal with ==; exactly when nothing is reduced or == decides equality of defaults"},
 {"property": "C34", "status": "proved", "theorems": ["C34_roundtrip", "C34_foreign", "C34_distinct", "C34_none_refuted"], "note": "Types of every nesting; equality of types, by which unions drop repeated members, is a parameter. Finding: optional values cannot be loaded."},
 {"property": "C35", "status": "proved", "theorems": ["C35_roundtrip", "C35_assigned", "C35_assigned_refuted", "C35_rank_refuted"], "note": "Round trip exactly for plain names; finding: assigned shapes with a variadic are reloaded with a fixed rank."},
 {"property": "C36", "status": "proved", "theorems": ["C36_nesting_kept", "C36_round_trip", "C36_mixed_refuted"], "note": "Nesting and idempotence for all values, the rest for nestings of one kind; refuted for lists inside tuples inside lists."},
 {"property": "C37", "status": "proved", "theorems": ["C37_padding_1d", "C37_padding_2d", "C37_stride", "C37_tuple", "C37_literal_refuted", "C37_same_refuted", "C37_stride_refuted", "C37_tuple_refuted"], "note": "All partly known inputs; in two dimensions the inferred padding has the same meaning, not always the same form (finding). Further findings: SAME with unknown kernel size, unknown stride set from the output, padding never inferred by the tuple converter. Type checks of set_value are not modelled."},
 {"property": "C38", "status": "proved", "theorems": ["C38_bindings", "C38_binds", "C38_step", "C38_required", "C38_run", "C38_initial", "C38_extra_refuted", "C38_missing_refuted", "C38_refused_refuted"], "note": "generated functions as parameters"},
 {"property": "C39", "status": "proved", "theorems": ["C39_accepts", "C39_rejects", "C39_result", "C39_twice_refuted"], "note": "acceptance iff the specification; jacobian keys are not part of this version of compile"},
 {"property": "C40", "status": "proved", "theorems": ["C40_cost", "C40_finalize", "C40_default", "C40_frozen", "C40_no_loss", "C40_connection_refuted", "C40_combiner_refuted", "C40_loss_name_refuted", "C40_pattern_refuted"], "note": "For every trained model and every sequence of add_loss, add_regularization (with and without a pattern), add_metric, set_loss_combiner and finalize, refused calls included: finalised exactly when the specification has a cost, and final_cost evaluates to it. Proviso: a regularised parameter given as a connection has the same key in its own model (otherwise C40_connection_refuted). Numbers are any commutative additive monoid with a right-distributive product; the primitives are assumed to act on tensor elements as documented."},
 {"property": "C41", "status": "proved", "theorems": ["C41_collected", "C41_settled", "C41_registration", "C41_dependencies", "C41_no_deadlock", "C41_errors", "C41_terminates", "C41_self_wakeup_refuted", "C41_blocked_refuted"], "note": "Sessions of adding constraints, outside changes, merging edges and solver calls, with arbitrary constraint behaviour, shape updates and scheduling. Two refuted theorems: the solver drops wake-ups a constraint causes to itself, and constraints waiting for a dependency are not run."},
 {"property": "C42", "status": "proved", "theorems": ["C42_results", "C42_same_arguments_fresh", "C42_new_shape_refuted"], "note": "write_into_cache for any sequence of writes; stale axes after a change of shape shown as a refutation."},
 {"property": "C43", "status": "proved", "theorems": ["C43_never_grows", "C43_bracket", "C43_hit", "C43_exact", "C43_end_refuted"], "note": "Any total order of points with midpoints between their arguments and any totally ordered function values (no NaN). The refuted theorem: a solution only at an end of the interval may never be hit."},
 {"property": "C44", "status": "proved", "theorems": ["C44_keys_distinct", "C44_rebase_collision_refuted", "C44_external_collision_refuted", "C44_user_key_collision_refuted", "C44_escape_collision_refuted", "C44_external_reserved_refuted"], "note": "FlatModel naming with short namings (externals, primitives, rebase) for any sequence of connections, under a stated naming proviso; four collisions shown when it fails. Long namings and rename_key are not modelled."},
 {"property": "C45", "status": "proved", "theorems": ["C45_sound", "C45_exact", "C45_flat", "C45_flat_forward", "C45_flat_backward", "C45_unchecked_refuted", "C45_negative_refuted", "C45_crossing_refuted", "C45_tied_refuted", "C45_floor_refuted", "C45_empty_refuted"], "note": "concat with an axis and flattened: for every number of inputs, rank, axis and state of a session no combination is lost or invented (C45_sound, C45_flat); one missing size is found exactly (C45_exact covers the known inputs of the property; C45_flat_forward/backward). Findings: sums of fully known sizes are not compared, negative sizes, spurious error for shapes known only at the ends, integer division without check, ZeroDivisionError for empty inputs."},
 {"property": "C46", "status": "proved", "theorems": ["C46_compiled_function_returns_the_outputs", "C46_plain", "C46_dead_duplicate_executed_refuted"], "note": "Whole path on backends with automatic differentiation; the only conditions on the compiled graph are that no leftover operator has a solver-found value, naming conditions of C02/C03, and admissible discards; the corollary C46_plain has none of them. dtype adjustment and the two validity checks at the end of _pre_compile are not modelled. The theorem also says that only operators needed by an output entry are executed, with one exception shown by C46_dead_duplicate_executed_refuted."},
 {"property": "C47", "status": "proved", "theorems": ["C47_dependency", "C47_cycle_diverges_refuted"], "note": ""},
 {"property": "C48", "status": "proved", "theorems": ["C48_update_notifies", "C48_match_notifies", "C48_match_silent_refuted"], "note": "The uncovered case of Uniadic.match is shown by the refuted theorem."},
 {"property": "C49", "status": "proved", "theorems": ["C49_sound", "C49_exact", "C49_forward", "C49_refuses", "C49_range_refuted", "C49_ellipses_refuted", "C49_untied_refuted"], "note": "Soundness, exactness with known rank, the shape of the result and the refusal of indices that do not fit, against a separate statement of the numpy rules; findings: integers out of range and two ellipses are accepted, and the status may be True while the output is not tied to the input. An index tensor of known rank is assumed to have known sizes."},
 {"property": "C50", "status": "proved", "theorems": ["C50_unary", "C50_binary", "C50_where", "C50_arrays_unary", "C50_arrays_binary", "C50_forward", "C50_kl_target_refuted", "C50_power_zero_refuted"], "note": "Every element-wise gradient function (18 operations of one array, 15 of two, where) is the derivative of its forward function times the output gradient on the stated domains, and lies between the one-sided derivatives at kinks; whole arrays: vector-Jacobian product; the stable forms of the forward functions equal the textbook ones. Findings: kl_divergence gradient for the target is wrong (also non-zero for a zero output gradient), power gradient for the exponent is nan at base 0. Floating point is modelled by real numbers (no rounding, overflow, nan or inf outside the one finding)."},
 {"property": "C51", "status": "proved", "theorems": ["C51_conv1d", "C51_conv1d_only", "C51_conv1d_weight", "C51_conv1d_input", "C51_conv1d_bias", "C51_even_kernel_refuted", "C51_conv2d", "C51_conv2d_only", "C51_conv2d_weight", "C51_conv2d_input", "C51_mixed_stride_refuted", "C51_out_of_bounds_refuted"], "note": "conv1d and conv2d (equal steps) are the zero-padded correlation for every unknown memory around the array; kernel, input and bias gradients are vector-Jacobian products (input: odd kernel or last position in the padding). Findings: even kernels lose the gradient of the last input entry; conv2d uses stride[0] for both axes (wrong values, or reads outside of the array). Entries are real numbers; einsum broadcasting of size-1 axes not modelled; conv2d_bias not modelled (same as conv1d_bias)."},
 {"property": "C52", "status": "proved", "theorems": ["C52_max_pool1d", "C52_max_pool1d_grad", "C52_ties_refuted", "C52_padding_value_refuted", "C52_max_pool2d", "C52_avg_pool2d", "C52_max_pool2d_grad", "C52_avg_pool2d_grad", "C52_only", "C52_mixed_stride_refuted"], "note": "max_pool1d, max_pool2d and avg_pool2d (equal steps) give the largest entry and the mean of each zero-padded window for every unknown memory around the array; gradients are vector-Jacobian products (max: no ties inside the input). Findings: tied maxima each get the whole gradient, zero padding takes part in the maximum, the step of the first axis is used for both axes in the forward functions. Real entries; the leading axes are two."},
 {"property": "C53", "status": "proved", "theorems": ["C53_sum", "C53_mean", "C53_variance", "C53_variance_no_axes_refuted", "C53_axes_only", "C53_softmax", "C53_max", "C53_min", "C53_prod", "C53_prod_negative_axis_refuted", "C53_prod_alone_refuted", "C53_extrema_only"], "note": "Sums, means, products, maxima, minima, variances over any axes of arrays of any rank and softmax compute what they claim; gradients are vector-Jacobian products (max/min: evenly shared over ties, derivative without ties; product: without zeros, or axes counted from the front and another entry in the group). Findings: product gradient at a zero with a negative axis or a group of one entry, gradient of a variance over no axes raises IndexError. Real entries; what numpy stores for a fully masked product is an unknown number."},
 {"property": "C54", "status": "proved", "theorems": ["C54_cross_entropy", "C54_logits", "C54_log_probs", "C54_only", "C54_output_gradient_changed_refuted", "C54_robust_logits_refuted", "C54_spatial_weights_refuted", "C54_pos_weight_refuted"], "note": "The three cross entropies equal minus the weighted mean of logarithms for labels and target arrays and every way of giving weights; gradients are vector-Jacobian products (from logits: not robust, or labels with a threshold of at most 1). Findings: output gradient changed in place, gradient of the robust loss from logits with a target array, weights=True with labels of rank-3 inputs, pos_weight=False. Real entries; trailing axes are one axis; weights=True not modelled above rank 3."},
 {"property": "C55", "status": "proved", "theorems": ["C55_transpose", "C55_transpose_only", "C55_transpose_signs_refuted", "C55_swapaxes", "C55_swapaxes_only", "C55_reshape", "C55_reshape_only", "C55_flatten", "C55_squeeze", "C55_atleast_1d", "C55_broadcast_to", "C55_broadcast_only", "C55_pad", "C55_pad_only"], "note": "Transposition, exchange of axes, reshaping, flattening, squeezing, broadcasting and padding with their gradients for all arrays; exception proved as a theorem ending in _refuted: axes of both signs give a wrong gradient. Repeating a single pad width for all axes is not modelled."},
 {"property": "C56", "status": "proved", "theorems": ["C56_indexer", "C56_indexer_only", "C56_rows", "C56_rows_repeated_refuted", "C56_embedding", "C56_rows_only", "C56_permute", "C56_permute_signs_refuted", "C56_where", "C56_where_only", "C56_transposed_diag", "C56_transposed_diag_wide_refuted", "C56_cartesian_diff"], "note": "Basic indexing, indexing with one int array, embedding, permuting rows, where, diagonal column and pairwise differences with their gradients; three exceptions proved as theorems ending in _refuted. Indices mixing arrays with slices, and lists or tuples as input, are not modelled."},
 {"property": "C57", "status": "proved", "theorems": ["C57_matmul", "C57_matmul_only", "C57_attention", "C57_weights", "C57_batched_mask_refuted"], "note": "Matrix products with broadcast batch axes and attention over any batch axes, masks and scales: values and gradients for all three inputs. Assumes every query keeps a position (otherwise the code returns nan) and real arithmetic. Finding: additive masks with batch axes are refused."},
 {"property": "C58", "status": "proved", "theorems": ["C58_columns", "C58_columns_only", "C58_gradient", "C58_rule_forward", "C58_rule_backward", "C58_degree_zero_refuted"], "note": "Columns, order, values, gradient and shape rule in both directions, with the rounding of Python's division modelled (sizes below 2^53). Finding: degree zero makes the shape rule loop for ever."},
 {"property": "C59", "status": "proved", "theorems": ["C59_distance", "C59_wave", "C59_wave_gradient", "C59_solve", "C59_outer", "C59_outer_factor_refuted", "C59_eigvalsh_refuted"], "note": "Distances with all three gradients, the norm wave, triangular systems and the outer product with its kernel gradient, in real arithmetic. Findings: wrong gradients for the factor in gpr_v_outer and eigvalsh, wrong declared rank of eigvalsh. Paths without a factor (eigenvalues, least squares) are not modelled."},
 {"property": "C60", "status": "proved", "theorems": ["C60_new_arrays", "C60_numpy", "C60_numpy_order_refuted", "C60_elementwise", "C60_unary", "C60_operator", "C60_operator_refuted", "C60_transpose", "C60_transpose_matrix", "C60_transpose_negative_refuted", "C60_matmul", "C60_matmul_batch_refuted", "C60_mean", "C60_mean_dropped_refuted", "C60_mean_negative_refuted"], "note": "Memory accesses, broadcasting, transposing, batched products, sums and means of the C code, in real arithmetic and without integer overflow; arrays from and to numpy. Findings: five kinds of shapes, axes or memory orders for which the C code is wrong or leaves its arrays."},
 {"property": "C61", "status": "proved", "theorems": ["C61_operand", "C61_fewer_axes_refuted", "C61_scalar", "C61_scalar_refuted", "C61_repeated_refuted", "C61_relu", "C61_squared_error", "C61_squared_error_target_refuted", "C61_mean", "C61_mean_refuted", "C61_matmul", "C61_matmul_refuted", "C61_transpose", "C61_transpose_axes_refuted"], "note": "All gradient functions of ops.c, in real arithmetic, with sequential batches. Findings: six kinds of shapes or arguments with wrong, overwritten or out-of-bounds gradients."},
 {"property": "C62", "status": "proved", "theorems": ["C62_squeeze", "C62_broadcast", "C62_flatten", "C62_squeeze_early_refuted", "C62_flatten_single_refuted", "C62_flatten_beyond_refuted"], "note": "squeeze, broadcast_to and flatten rules on the shape store. Findings: squeeze ends early, flatten refuses arrays with one axis, flatten accepts a last position behind the last axis"},
 {"property": "C63", "status": "proved", "theorems": ["C63_pad", "C63_transpose", "C63_axes", "C63_eye", "C63_pad_negative_refuted", "C63_transpose_ranks_refuted", "C63_axes_rank_refuted", "C63_axes_negative_refuted", "C63_axes_unknown_refuted", "C63_axes_shared_refuted", "C63_eye_refuted"], "note": "Soundness for every completion of the arguments is proved for all states; the seven findings are exceptions named in the statement."},
 {"property": "C64", "status": "proved", "theorems": ["C64_bcast", "C64_known", "C64_where", "C64_leading_refuted", "C64_output_refuted", "C64_shared_refuted", "C64_shared_error_refuted"], "note": "Alignment and dimension loop of bcast_helper and where_constrains. bcast_update_all_possibilites is modelled where it only calls bcast_uniadics. The four *_refuted theorems show the conditions are needed: leading dimensions of an input of unknown rank beside a longer known input, a known output rank with an input of unknown rank, and shared unknown parts with different numbers of dimensions behind them."},
 {"property": "C65", "status": "proved", "theorems": ["C65_types", "C65_exact", "C65_order", "C65_values", "C65_power", "C65_conflict_refuted", "C65_twice_refuted", "C65_power_refuted", "C65_minimum_order_refuted", "C65_minimum_bool_refuted", "C65_where_refuted"], "note": "general_type_constraint for all operators but minimum and maximum, any number of inputs and any order of sets. The *_refuted theorems: contradictions accepted silently, operands used twice, integer powers with negative exponents, minimum and maximum of different types, where of bools. Types are finite sets of types without unions; the intersection of types is C29."},
 {"property": "C66", "status": "proved", "theorems": ["C66_keeps", "C66_result", "C66_range", "C66_open", "C66_open_list", "C66_open_refuted", "C66_first_refuted", "C66_union_refuted", "C66_twice_refuted", "C66_known_refuted", "C66_negative_refuted"], "note": "All supported types, values without empty lists and tuples inside. Inputs with one list or tuple type; unions of them only as findings."},
 {"property": "C67", "status": "proved", "theorems": ["C67_area", "C67_exact", "C67_rank", "C67_order", "C67_model", "C67_constant_refuted", "C67_logits_refuted", "C67_mixed_refuted", "C67_single_refuted", "C67_missing_refuted", "C67_backends_refuted"], "note": "the area is the Mann-Whitney statistic less the shared top, mean over classes, independent of order and increasing transformations; six findings refuted"},
 {"property": "C68", "status": "proved", "theorems": ["C68_pack", "C68_roundtrip", "C68_torch_refuted", "C68_lengths_refuted", "C68_empty_refuted"], "note": "slots hold exactly the running sequences, unpacking inverts packing up to zeros, in the original order; three findings refuted"},
 {"property": "C69", "status": "proved", "theorems": ["C69_accuracy", "C69_micro", "C69_macro", "C69_weighted", "C69_weighted_recall", "C69_format", "C69_binary_refuted", "C69_threshold_refuted", "C69_absent_refuted", "C69_range_refuted"], "note": "Accuracy, Precision, Recall and F1 against their definitions by counts for every average, formatting of predictions; findings: the default average of a binary task is the accuracy, the threshold is ignored with one-hot predictions, predicted classes absent from the labels do not count, labels out of range lower the result. Exact arithmetic."},
 {"property": "C70", "status": "proved", "theorems": ["C70_set", "C70_order", "C70_sequence", "C70_slice", "C70_item", "C70_index_refuted", "C70_empty_refuted", "C70_bool_refuted"], "note": "Merging of partly known values is the least upper bound up to ==, in any order; lists, tuples, slices and indexing infer soundly and raise exactly on contradiction; findings: negative indices conflict with inferred ones, the empty list cannot be a value, True and 1 depend on the order. Tensors, dictionaries and type checks not modelled."},
 {"property": "C71", "status": "proved", "theorems": ["C71_encoder", "C71_decoder", "C71_forced", "C71_lstm", "C71_single_refuted", "C71_order_refuted", "C71_unsorted_refuted"], "note": "Encoder, decoder and teacher forcing over any row-wise cell, every sequence as if alone; single step, order of the states and unsorted batches are findings"},
 {"property": "C72", "status": "proved", "theorems": ["C72_normalise", "C72_layer", "C72_group", "C72_group_error", "C72_running", "C72_output", "C72_groups_refuted", "C72_single_refuted"], "note": "LayerNorm, GroupNorm and running values of BatchNorm2D over the reals; split channels and single entries are findings"},
 {"property": "C73", "status": "proved", "theorems": ["C73_sound", "C73_known", "C73_other_axes_refuted", "C73_middle_refuted", "C73_matched_refuted", "C73_twins_refuted", "C73_unlinked_refuted"], "note": "Every branch except one rank known narrows soundly; with known ranks the two axes are exchanged; unchecked other axes, matching before the exchange and unlinked parts are findings"},
 {"property": "C74", "status": "proved", "theorems": ["C74_size", "C74_axis", "C74_shape", "C74_randn", "C74_axis_zero_refuted", "C74_known_size_refuted"], "note": "All branches of the three rules; axis 0 of a shape without axes and known sizes that are not taken over are findings"}
]}
