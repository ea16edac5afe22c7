{
 "claims": [
  {
   "property": "C01",
   "status": "proved",
   "theorems": [
    "alloc_never_undefined",
    "alloc_live_disjoint_and_inside",
    "alloc_negative_size_refuted",
    "alloc_toggle_refuted"
   ],
   "note": "All request sizes 0 <= n < 2^63, every environment. Negative sizes and toggling the cache switch are refuted (findings)."
  },
  {
   "property": "C02",
   "status": "proved",
   "theorems": [
    "alloc_account",
    "alloc_total_is_sum_held",
    "alloc_release_only_unused",
    "alloc_destroy_returns_everything",
    "alloc_destroy_checks_live",
    "alloc_free_unknown_noop",
    "alloc_never_undefined"
   ],
   "note": ""
  },
  {
   "property": "C03",
   "status": "proved",
   "theorems": [
    "alloc_account",
    "alloc_unused_region_is_one_block",
    "alloc_unused_region_is_reused",
    "alloc_best_fit_from_cache"
   ],
   "note": "Requests are matched per size class (<= 1 MiB use 2 MiB regions)."
  },
  {
   "property": "C04",
   "status": "partial",
   "theorems": [
    "reshape_correct_partial",
    "reshape_preserves",
    "flatten_merges_partial",
    "flatten_to_end_partial",
    "unflatten_splits_partial",
    "unsqueeze_inserts",
    "unsqueeze_rejects",
    "squeeze_dim_removes",
    "squeeze_dim_rejects",
    "squeeze_removes",
    "reshape_negative_refuted",
    "flatten_out_of_range_refuted",
    "flatten_negative_end_refuted",
    "unflatten_two_inferred_refuted"
   ],
   "note": "Exact for requests with entries >= -1 and in-range dimensions. The full claim is false of the code: requests such as [-2,-2] are accepted, flatten reads past the shape for out-of-range dims and takes every negative last dimension as the last one, unflatten with two -1 is accepted on zero-size tensors."
  },
  {
   "property": "C05",
   "status": "proved",
   "theorems": [
    "rowmajor_index_bijection",
    "rowmajor_indices_exactly_valid"
   ],
   "note": ""
  },
  {
   "property": "C06",
   "status": "partial",
   "theorems": [
    "broadcast_shape_partial",
    "broadcast_zero_size_refuted"
   ],
   "note": "Exact for shapes without zero-size dimensions; with them the code is wrong and order dependent (refuted)."
  },
  {
   "property": "C07",
   "status": "partial",
   "theorems": [
    "elementwise_broadcasts_partial",
    "elementwise_rejects_partial",
    "elementwise_inplace_same_partial",
    "unary_applies_everywhere",
    "elementwise_empty_refuted"
   ],
   "note": "All operand counts, shapes without zero sizes, all element functions, out of place and in place; zero-size operands read out of bounds (refuted)."
  },
  {
   "property": "C08",
   "status": "partial",
   "theorems": [
    "broadcast_gradient_partial",
    "broadcast_gradient_adjoint",
    "broadcast_operand_shapes",
    "broadcast_gradient_rank_refuted"
   ],
   "note": "Values proved for every operand shape over any commutative ring; the delivered shape is wrong when only leading 1-dimensions differ (refuted)."
  },
  {
   "property": "C09",
   "status": "partial",
   "theorems": [
    "permute_moves",
    "permute_onto",
    "permute_inverse_restores",
    "permute_inverse_exists",
    "permute_all_reverses",
    "transpose_swaps",
    "transpose_rejects",
    "permute_gradient_is_permuted_back",
    "permute_gradient_partial",
    "permute_gradient_refuted"
   ],
   "note": "Data movement proved for every rank and permutation; the gradient passed back is a reshape, which is right only if the permutation moves only size-1 dimensions (refuted otherwise)."
  },
  {
   "property": "C10",
   "status": "partial",
   "theorems": [
    "split_pieces",
    "split_sections_partial",
    "chunk_pieces_partial",
    "chunk_sizes_cover",
    "concat_restores",
    "narrow_is_range",
    "narrow_rejects_outside",
    "concat_contains",
    "split_concat_restores",
    "concat_rejects_mismatch",
    "stack_adds_dimension",
    "stack_rejects_mismatch",
    "vstack_makes_rows",
    "vstack_joins_rows",
    "hstack_joins",
    "split_rejects_uneven",
    "split_sections_reject",
    "chunk_rejects",
    "split_negative_sections_refuted",
    "chunk_empty_refuted",
    "split_dim_unchecked_refuted"
   ],
   "note": "All shapes, dimensions and contents, on fresh tensors and views; negative sections, chunking an empty dimension and an invalid split dimension are not handled by the code (refuted)."
  },
  {
   "property": "C100",
   "status": "partial",
   "theorems": [
    "construct_succeeds",
    "construct_usable_partial",
    "construct_no_listen_refuted",
    "failed_call_silent_refuted",
    "workers_registered",
    "workers_wake",
    "workers_not_asleep",
    "workers_present_refuted",
    "connections_own_partial",
    "connections_served_partial",
    "connections_kept_partial",
    "reset_serves_other_refuted",
    "reset_closes_other_refuted",
    "reset_closes_file_refuted",
    "memory_there_partial",
    "destroy_refuted"
   ],
   "note": "The start-up clause is proved (for workers registered, not for workers still connected). The clauses on connections are proved for all interleavings without a reset connection, and false with one; the store cannot be destroyed safely at any time; failures are not reported."
  },
  {
   "property": "C101",
   "status": "partial",
   "theorems": [
    "to_converts_partial",
    "to_keeps",
    "to_round_trip",
    "wider_types",
    "to_order_partial",
    "to_sign",
    "to_storage",
    "toList_item_partial",
    "fill_converts_partial",
    "to_out_of_range_refuted",
    "to_wraps_refuted",
    "to_bf16_refuted",
    "int_float_int_refuted",
    "to_bool_refuted",
    "to_bool_partial",
    "to_gradient_refuted"
   ],
   "note": "On the CPU. Proved for every pair of types: numbers the new type has, round trips, rounding and truncation, order and sign. Refuted: floating-point numbers out of range are undefined behaviour, integers out of range wrap, integers above 2^24 are rounded twice on the way to bfloat16, Bool keeps bytes (0.5 is false, 2 stays 2), and the history is lost. Tensors below 2^31 elements."
  },
  {
   "property": "C102",
   "status": "partial",
   "theorems": [
    "C102_softmax_values",
    "C102_softmax_order",
    "C102_softmax_total",
    "C102_softmax_close",
    "C102_log_softmax_partial",
    "C102_log_softmax_close",
    "C102_rejects",
    "C102_long_lines_refuted",
    "C102_log_finite_refuted"
   ],
   "note": "On the CPU, std::exp and std::log being any functions with the stated properties (the correctly rounded ones have them). Proved with error bounds, for softmax and log-softmax, that grow with the length and the spread of the line. Refuted: the total of long lines is about 1 (the running sum of exponentials stops growing at 2^8 in BFloat16, 2^11 in Half, 2^24 in float), and log-softmax of numbers is a number (differences overflow)."
  },
  {
   "property": "C103",
   "status": "partial",
   "theorems": [
    "C103_layout",
    "C103_tells_partial",
    "C103_threads",
    "C103_no_deadlock",
    "C103_ends",
    "C103_full_refuted",
    "C103_small_numbers_refuted"
   ],
   "note": "Proved for texts of at most 1022 characters; floating-point elements are told up to a millionth. Refuted: printing in full tells all the elements (the log cuts every message to 1022 characters), and different floating-point numbers are shown differently (1e-7 is shown as 0.000000)."
  },
  {
   "property": "C104",
   "status": "proved",
   "theorems": [
    "C104_round_trip",
    "C104_strings"
   ],
   "note": "For signed char; the operations of the TCP store are those of C35's model."
  },
  {
   "property": "C11",
   "status": "partial",
   "theorems": [
    "index_subtensor_partial",
    "index_put_replaces",
    "index_of_view_refuted",
    "index_out_of_range_refuted"
   ],
   "note": "Proved for tensors at storage offset 0; indexing a view ignores its offset (refuted) and out-of-range indices are accepted (refuted)."
  },
  {
   "property": "C12",
   "status": "partial",
   "theorems": [
    "shared_storage_is_invisible_partial",
    "write_not_seen_elsewhere_partial",
    "write_seen_by_copies",
    "copy_isolated_refuted"
   ],
   "note": "All histories of create/copy/clone/slice/drop/in-place write that go through copyOnWrite; copy_, tensor-index assignment and unary out-variants write without it (refuted)."
  },
  {
   "property": "C13",
   "status": "partial",
   "theorems": [
    "view_bounds_partial",
    "view_bounds_refuted",
    "view_negative_offset_refuted"
   ],
   "note": "Exact for offset 0 and for one-byte elements; false of the code otherwise (units mixed, negative offsets accepted)."
  },
  {
   "property": "C14",
   "status": "partial",
   "theorems": [
    "expand_repeats_partial",
    "expand_incompatible_refuted",
    "gather_reads",
    "scatter_writes",
    "gather_scatter_reject",
    "index_select_picks",
    "repeat_interleave_repeats",
    "index_select_unchecked_refuted"
   ],
   "note": "All ranks, shapes, index tensors; expand does not reject incompatible targets (refuted)."
  },
  {
   "property": "C15",
   "status": "proved",
   "theorems": [
    "sum_adds_all",
    "sum_dims_adds_groups",
    "sum_keepdims",
    "sum_dims_one_by_one",
    "sum_rejects",
    "mean_averages_all",
    "mean_dims_averages_groups",
    "mean_rejects"
   ],
   "note": "Exact arithmetic (any commutative ring; reals for means); rounding is not modelled. Means of empty tensors are excluded (0/0)."
  },
  {
   "property": "C16",
   "status": "partial",
   "theorems": [
    "max_all_partial",
    "min_all_partial",
    "max_dim_partial",
    "min_dim_partial",
    "extreme_dim_rejects",
    "max_of_minus_infinity_refuted",
    "min_dim_of_infinity_refuted"
   ],
   "note": "Every total order, shape, dimension; groups consisting only of the infinity on the wrong side give the scan's start value (refuted). NaN is not modelled."
  },
  {
   "property": "C17",
   "status": "partial",
   "theorems": [
    "matmul_2d",
    "matmul_batched_partial",
    "matmul_vectors",
    "matmul_row_vector",
    "matmul_column_vector",
    "dot_is_inner_product",
    "matmul_rejects_scalar",
    "matmul_rejects_inner_size",
    "matmul_rejects_batches",
    "matmul_batch_rank_refuted",
    "matmul_batch_rank_reads_outside_refuted",
    "matmul_vector_batch_refuted",
    "matmul_empty_batch_refuted"
   ],
   "note": "2-D and vector products exact for all sizes and flags; batches proved when the batch ranks agree or one operand is unbatched. Different batch ranks, vector times batch and empty batched products are wrong in the code (refuted). Exact arithmetic."
  },
  {
   "property": "C18",
   "status": "proved",
   "theorems": [
    "im2col_windows",
    "col2im_collects",
    "col2im_adjoint",
    "im2col_single_image",
    "im2col_rejects_rank",
    "im2col_kernel_too_large_refuted"
   ],
   "note": "Every batch, channel count, image, kernel, stride and padding whose kernel fits the padded image; reading outside is UB in the model, so success shows it does not happen. A kernel too large by less than the stride is accepted (finding)."
  },
  {
   "property": "C19",
   "status": "partial",
   "theorems": [
    "conv2d_channels_last",
    "conv2d_nchw_partial",
    "conv2d_nchw_refuted",
    "conv2d_rejects"
   ],
   "note": "The values are right for every geometry but stored channels-last; in NCHW the claim holds only with one output channel or one position (refuted otherwise)."
  },
  {
   "property": "C20",
   "status": "partial",
   "theorems": [
    "max_pool_channels_last",
    "max_pool_nchw_partial",
    "max_pool_nchw_refuted",
    "max_pool_backward_routes"
   ],
   "note": "Window maxima and chosen pixels proved for every geometry, but stored channels-last (refuted in NCHW); padding counts as the value 0."
  },
  {
   "property": "C21",
   "status": "proved",
   "theorems": [
    "backward_order",
    "backward_runs_each_once",
    "recorded_graphs_are_acyclic"
   ],
   "note": "Any acyclic graph, shared results and repeated edges included; programs can only record acyclic graphs."
  },
  {
   "property": "C22",
   "status": "partial",
   "theorems": [
    "leaf_gradients_partial",
    "leaf_gradients_new_tensors",
    "paths_are_walks",
    "leaf_gradients_refuted"
   ],
   "note": "Sum over paths plus the previous gradient, when a rule that hands on the incoming tensor itself does so to an input that gets no other gradient. The unrestricted statement is false: d = (a + b) + a leaves twice the gradient in b."
  },
  {
   "property": "C23",
   "status": "partial",
   "theorems": [
    "zero_grad_passes_partial",
    "backward_twice_refuted",
    "zero_grad_shared_refuted",
    "zero_grad_intermediate_refuted"
   ],
   "note": "Any number of zero_grad/forward/backward passes leaves the last pass's gradient, under the same restriction as C22. Two backward passes over one graph do not accumulate twice the gradient (4 times for two chained operations)."
  },
  {
   "property": "C24",
   "status": "partial",
   "theorems": [
    "mul_gradient",
    "div_gradient",
    "pow_gradient_base",
    "pow_gradient_exponent",
    "pow_is_power",
    "sin_cos_gradient",
    "relu_gradient",
    "sum_gradient",
    "add_gradient_partial",
    "sub_gradient_partial",
    "add_alpha_refuted"
   ],
   "note": "Vector-Jacobian products of whole broadcast tensors over the reals (no rounding, no zero sizes). Refuted for add/sub with alpha different from 1. gelu, silu, sqrt, maximum and minimum have no backward (NOT_IMPLEMENTED); softmax and log-softmax are under C43."
  },
  {
   "property": "C25",
   "status": "proved",
   "theorems": [
    "no_grad_nests"
   ],
   "note": "Programs with nested scopes, exceptions and handlers, any depth."
  },
  {
   "property": "C26",
   "status": "partial",
   "theorems": [
    "hooks_run_partial",
    "first_unregister_removes_that_hook_partial",
    "hooks_shift_refuted",
    "hooks_of_results_refuted"
   ],
   "note": "Leaves, hooks unregistered newest first. Otherwise identifiers shift and another hook is removed; hooks of non-leaf tensors never run."
  },
  {
   "property": "C27",
   "status": "proved",
   "theorems": [
    "bf16_widen_exact",
    "bf16_narrow_rounds_to_nearest_even",
    "bf16_round_trip",
    "bf16_narrow_monotone"
   ],
   "note": "All float32 and bfloat16 bit patterns, values given by Flocq's IEEE formats; the host (non-CUDA) branch of the conversions."
  },
  {
   "property": "C28",
   "status": "proved",
   "theorems": [
    "half_widen_exact",
    "half_widen_bits_exact",
    "half_narrow_rounds_to_nearest_even",
    "half_round_trip",
    "half_narrow_monotone"
   ],
   "note": "All float32 and half bit patterns; float operations in the conversion code are IEEE binary32 operations rounding to nearest even (Flocq)."
  },
  {
   "property": "C29",
   "status": "proved",
   "theorems": [
    "load_restores",
    "reload_restores"
   ],
   "note": "All names, shapes, element types, contents and orders; the file must be smaller than 2^63 bytes and writing it must not fail (save does not check). Names of the target sharing one tensor must have been saved with equal contents."
  },
  {
   "property": "C30",
   "status": "partial",
   "theorems": [
    "load_saved_partial",
    "load_truncated_partial",
    "load_wrong_magic",
    "load_wrong_version",
    "load_empty_file",
    "load_any_file_partial",
    "load_strict_complete",
    "load_cut_headers_refuted",
    "load_offset_wraps_refuted",
    "load_dtype_truncated_refuted",
    "load_not_atomic_refuted"
   ],
   "note": "Mismatches and truncated data are rejected exactly; but every file cut inside its headers and an offset near 2^64 are read out of bounds, the element type is truncated to a byte, and a rejected load can have overwritten tensors (all refuted)."
  },
  {
   "property": "C31",
   "status": "proved",
   "theorems": [
    "steplr_closed_form",
    "steplr_resumed",
    "steplr_zero_step_size_refuted",
    "steplr_step_to_epoch_refuted"
   ],
   "note": "Exact real arithmetic. A zero step size is undefined behaviour and step(epoch) repeated for one epoch compounds; both are shown."
  },
  {
   "property": "C32",
   "status": "partial",
   "theorems": [
    "sgd_follows_recurrence_partial",
    "sgd_momentum_without_decay",
    "sgd_momentum_refuted",
    "adagrad_follows_recurrence",
    "rmsprop_follows_recurrence_partial",
    "rmsprop_centered_refuted",
    "adadelta_follows_recurrence",
    "adam_follows_recurrence",
    "adamw_follows_recurrence_partial",
    "adamw_without_gradient_refuted",
    "only_steps_change_parameters",
    "unregistered_parameters_unchanged",
    "parameters_do_not_interfere",
    "no_gradient_no_change"
   ],
   "note": "False as stated for SGD with momentum and no weight decay (the buffer is the gradient tensor until the second step), centred RMSprop (no square root) and AdamW (decays parameters without gradient); those cases are refuted, everything else is proved in exact real arithmetic."
  },
  {
   "property": "C33",
   "status": "partial",
   "theorems": [
    "loader_epoch_partial",
    "loader_visits_all_partial",
    "loader_drop_last",
    "loader_each_sample_once_partial",
    "random_sampler_permutes",
    "loader_large_refuted",
    "loader_zero_batch_refuted"
   ],
   "note": "Up to 2^24 samples (without dropLast) and items with a fixed number of tensors; above that the float quotient loses samples, which is refuted at 2^24+1. std::shuffle is any sequence of exchanges."
  },
  {
   "property": "C34",
   "status": "partial",
   "theorems": [
    "sampler_shares_partial",
    "sampler_covers_partial",
    "sampler_drop_last",
    "sampler_padding_refuted",
    "sampler_large_refuted"
   ],
   "note": "Up to 2^24 samples and padding no longer than the dataset (in particular at least as many samples as ranks); otherwise undefined behaviour (n=1, 3 ranks) or a lost sample (n=2^25+1, 2 ranks), both refuted."
  },
  {
   "property": "C35",
   "status": "partial",
   "theorems": [
    "store_linearizable_partial",
    "store_add_totals_partial",
    "store_adders_distinct_partial",
    "store_executes_partial",
    "store_counter_executes",
    "store_add_text_refuted",
    "store_add_overflow_refuted"
   ],
   "note": "Every execution of the server under any scheduling is linearizable with respect to a sequential map; adders get distinct consecutive totals. Partial because the real server terminates on an addition to text that is not a number or on overflow (refuted theorems); shutdown is not modelled."
  },
  {
   "property": "C36",
   "status": "proved",
   "theorems": [
    "wire_send",
    "wire_send_all",
    "wire_request",
    "wire_requests",
    "wire_answer",
    "wire_broken",
    "wire_prefix_free"
   ],
   "note": "Requests and answers, any fragmentation, any sequence; little-endian hosts on both sides."
  },
  {
   "property": "C37",
   "status": "partial",
   "theorems": [
    "store_no_sleep_partial",
    "store_wakes_partial",
    "store_lost_wakeup_refuted",
    "store_lost_wakeup_get_refuted"
   ],
   "note": "Holds as long as no awaited key is deleted; with set, delete, set again a waiter sleeps on although its key is present."
  },
  {
   "property": "C38",
   "status": "partial",
   "theorems": [
    "accept_partial",
    "accept_refuted"
   ],
   "note": "Holds up to 129 connections; the 130th makes the accept loop lock a mutex it holds."
  },
  {
   "property": "C39",
   "status": "partial",
   "theorems": [
    "file_set_get_linearizable_partial",
    "file_alone_partial",
    "file_get_absent",
    "file_delete_refuted",
    "file_lost_increment_refuted",
    "file_mixed_add_refuted",
    "file_empty_get_refuted",
    "file_ghost_key_refuted",
    "file_mixed_set_refuted"
   ],
   "note": "Set and get alone are linearizable under every interleaving of file-system steps; calls that do not overlap behave like a map. Refuted: concurrent add loses increments and mixes digits (closing the read handle drops the record lock), deleteKey of an absent key reports success and makes it visible meanwhile, get can return an empty value nobody wrote."
  },
  {
   "property": "C40",
   "status": "proved",
   "theorems": [
    "buckets_partition",
    "bucket_slices",
    "bucket_limit",
    "buckets_accepted"
   ],
   "note": ""
  },
  {
   "property": "C41",
   "status": "partial",
   "theorems": [
    "ddp_average_partial",
    "ddp_average_one_bucket",
    "ddp_missing_gradient",
    "ddp_backward_twice",
    "ddp_average_refuted",
    "ddp_zero_size_refuted",
    "ddp_zero_size_last_refuted"
   ],
   "note": "Holds for every arrival order on every rank if the buckets become full in the same order on all ranks (always true with one bucket). Refuted otherwise: the n-th collective of each rank belong together, so different buckets are added. A parameter without elements fails an assertion."
  },
  {
   "property": "C42",
   "status": "partial",
   "theorems": [
    "svec_like_list_partial",
    "svec_push_alias_refuted",
    "svec_insert_alias_refuted",
    "svec_resize_alias_refuted",
    "svec_no_inline_refuted"
   ],
   "note": "Holds for every program, element type and inline capacity of at least one, including absence of undefined behaviour and of leaks, unless an argument refers into the vector being changed (push, insert and resize then read a moved or freed element: refuted)."
  },
  {
   "property": "C43",
   "status": "proved",
   "theorems": [
    "softmax_value",
    "softmax_distribution",
    "softmax_shift",
    "softmax_order",
    "logsoftmax_is_log",
    "softmax_gradient",
    "logsoftmax_gradient",
    "softmax_rejects",
    "softmax_backward_rejects",
    "softmax_sum_range"
   ],
   "note": "Every shape, dimension (negative ones too), real input. Overflow of exp is modelled (any bound M >= 0), rounding and underflow are not. The gradients include the saved output path of the Function classes."
  },
  {
   "property": "C44",
   "status": "partial",
   "theorems": [
    "rope_table",
    "rope_frequencies",
    "rope_scaled_frequencies",
    "rope_value_partial",
    "rope_norm_partial",
    "rope_undone_partial",
    "rope_relative_partial",
    "rope_rejects",
    "rope_context_refuted"
   ],
   "note": "Every shape, input, frequency and offset inside the context (exact real arithmetic): rotation, norm, inverse, relative position. Missing because false: the position is not checked, so every non-empty input with a row outside the context reads outside the table."
  },
  {
   "property": "C45",
   "status": "partial",
   "theorems": [
    "sort_row_partial",
    "sort_permutes_partial",
    "topk_row_partial",
    "sort_rejects",
    "topk_rejects",
    "sort_contract_met",
    "partial_sort_contract_met",
    "sort_nan_refuted"
   ],
   "note": "Full for values that operator< orders (no NaN), any shape, dimension, k, direction, ties, any std::sort/std::partial_sort keeping the C++17 contract. Missing: rows holding NaN, for which the comparison breaks the contract (sort_nan_refuted)."
  },
  {
   "property": "C46",
   "status": "proved",
   "theorems": [
    "cumsum_running_sum",
    "cumsum_rejects"
   ],
   "note": "Every shape, dimension and contents over any commutative ring (no rounding)."
  },
  {
   "property": "C47",
   "status": "partial",
   "theorems": [
    "multinomial_draws_partial",
    "multinomial_draws_1d_partial",
    "multinomial_rejects",
    "u1_in_unit",
    "multinomial_tiny_refuted",
    "multinomial_overflow_refuted",
    "multinomial_negative_refuted",
    "multinomial_empty_refuted"
   ],
   "note": "Proved in IEEE binary32 with rounding for every number of rows, categories and draws, every outcome of the generator and every weight that is zero or between 2^-126 and 2^103 (both excluded): valid, distinct without replacement, and the category whose share of the total contains the random number; rejection when nothing is left to draw. Missing because false: a total of at most 2^-126 or an overflowing total returns (or clears) the index past the last category, negative weights are accepted, no category returns uninitialised memory."
  },
  {
   "property": "C48",
   "status": "partial",
   "theorems": [
    "seed_reproducible",
    "shuffles_continue_partial",
    "random_fills_repeat_refuted",
    "random_fill_twice_refuted",
    "unseeded_draws"
   ],
   "note": "Reproducibility proved for every sequence of random operations; the shuffles of samplers continue one stream. Tensor fills, dropout and multinomial draw from a copy of the generator, so each starts the stream again: refuted."
  },
  {
   "property": "C49",
   "status": "proved",
   "theorems": [
    "dispatch_no_collision",
    "dispatch_exact",
    "dispatch_key",
    "dispatch_bad_list",
    "dispatch_all_types"
   ],
   "note": "For every registration history and every call."
  },
  {
   "property": "C50",
   "status": "partial",
   "theorems": [
    "named_parameters_exact",
    "named_states_exact",
    "names_unique",
    "each_tensor_once",
    "train_reaches",
    "zero_grad_reaches_partial",
    "zero_grad_frozen_refuted",
    "to_type_reaches",
    "to_device_reaches",
    "to_both_reaches",
    "init_reaches",
    "module_list_named",
    "sequential_chain",
    "names_clash_refuted"
   ],
   "note": "All of it for every tree, except that zeroGrad fails as soon as one parameter does not require a gradient (refuted)."
  },
  {
   "property": "C51",
   "status": "partial",
   "theorems": [
    "mse_value_partial",
    "mse_rejects_partial",
    "mse_gradient_partial",
    "mse_gradient_refuted",
    "nll_value_partial",
    "nll_rejects",
    "nll_gradient_partial",
    "nll_gradient_refuted",
    "nll_gradient_rank3_refuted",
    "nll_targets_refuted"
   ],
   "note": "Values for every shape without zero sizes, input, target and reduction; mse gradient for every incoming gradient when the target broadcasts to the input; the nll gradient of a matrix is right if and only if the incoming gradient is 1, so the claim is refuted for every other incoming gradient, for more than two dimensions with mean, and for targets larger than the input in mse. Real arithmetic."
  },
  {
   "property": "C52",
   "status": "partial",
   "theorems": [
    "dropout_eval",
    "dropout_train_partial",
    "dropout_gradient_partial",
    "dropout_every_mask",
    "dropout_zeroes_with_probability_p_partial",
    "dropout_mean_partial",
    "expected_is_probability",
    "dropout_backward_twice",
    "dropout_op_refuted"
   ],
   "note": "Every shape without zero sizes, input, p and mask: survivors scaled by 1/(1-p), same mask and scale in the gradient (which is the derivative), identity in evaluation mode, zeroed with probability exactly p and expected value kept when the draws are independent. The second entry point used by attention treats p as the probability of keeping (refuted). Real arithmetic."
  },
  {
   "property": "C53",
   "status": "partial",
   "theorems": [
    "linear_value_partial",
    "linear_no_bias_partial",
    "linear_rejects",
    "linear_input_gradient_partial",
    "linear_weight_gradient_partial",
    "linear_bias_gradient_partial",
    "linear_batched_gradients_refuted",
    "linear_vector_gradients_refuted"
   ],
   "note": "Over every commutative ring: the value and the input gradient (adjoint) for every number of leading dimensions, weight and bias gradients (adjoint) for matrices; with one leading dimension more, or a vector, the gradients of weight and bias never have the right shape (refuted). No zero sizes."
  },
  {
   "property": "C54",
   "status": "proved",
   "theorems": [
    "saved_data_in_order",
    "saved_data_overrun_reported",
    "second_backward_reported"
   ],
   "note": "All interleavings of saves and reads."
  },
  {
   "property": "C55",
   "status": "partial",
   "theorems": [
    "arange_real",
    "arange_real_wrong_way_partial",
    "arange_int_partial",
    "arange_int_wrong_way_partial",
    "arange_count",
    "arange_int_refuted",
    "arange_bad_step_refuted",
    "linspace_real",
    "linspace_int_partial",
    "linspace_rejects",
    "linspace_int_refuted"
   ],
   "note": "Real arange: exactly the values before stop, every start, stop, non-zero step; linspace: n evenly spaced values with both ends. For integers the claim holds exactly when the step divides and is refuted otherwise (the last value is always missing, the end of linspace is not reached); a zero step or a step the wrong way is undefined. Floating-point rounding is not modelled."
  },
  {
   "property": "C56",
   "status": "partial",
   "theorems": [
    "layer_norm_value_partial",
    "rms_norm_value_partial",
    "layer_norm_rows_partial",
    "rms_norm_rows_partial",
    "norm_rows_independent_partial",
    "norm_rejects",
    "norm_weight_size_refuted",
    "norm_empty_refuted"
   ],
   "note": "Every shape with a non-empty last dimension, every real input, eps > 0, weight and bias of matching size. Missing because false: a weight or bias of the wrong size is read past its end, a scalar input or rows without elements are undefined behaviour. No rounding."
  },
  {
   "property": "C57",
   "status": "proved",
   "theorems": [
    "tril_keeps",
    "triu_keeps",
    "tril_triu_decompose"
   ],
   "note": ""
  },
  {
   "property": "C58",
   "status": "partial",
   "theorems": [
    "all_gather_work_partial",
    "all_gather_outputs_refuted",
    "all_gather_short_refuted"
   ],
   "note": "The gathered values are in the output of the returned work. The caller's output tensors keep their old contents in every world: the statement is refuted."
  },
  {
   "property": "C59",
   "status": "partial",
   "theorems": [
    "var_mean_all",
    "var_mean_dims_partial",
    "var_mean_shapes_refuted"
   ],
   "note": "Values proved for all shapes, dimensions and settings; the mean keeps the reduced dimensions even without keepdims (refuted)."
  },
  {
   "property": "C60",
   "status": "proved",
   "theorems": [
    "conv2d_backward_adjoint"
   ],
   "note": "Exact arithmetic over any commutative ring; the bias part needs a non-empty output (with an empty one the forward bias addition itself is undefined, see C07)."
  },
  {
   "property": "C61",
   "status": "partial",
   "theorems": [
    "broadcast_parameters_partial",
    "broadcast_zero_size_refuted"
   ],
   "note": "Holds for parameters with at least one element; a bucket of parameters without elements fails an assertion."
  },
  {
   "property": "C62",
   "status": "partial",
   "theorems": [
    "index_tensors_read_partial",
    "embedding_rows_partial",
    "index_tensors_put_value_partial",
    "index_tensors_put_partial",
    "index_tensors_put_untouched",
    "index_tensors_put_written",
    "index_tensors_put_get_partial",
    "index_tensors_put_rejects",
    "index_tensors_range_refuted",
    "index_tensors_sizes_refuted",
    "index_tensors_count_refuted"
   ],
   "note": "Every shape, number of index tensors and in-range index values; values of the wrong size are rejected. Missing because false: out-of-range indices, index tensors of different sizes and too many (or no) index tensors are not rejected."
  },
  {
   "property": "C63",
   "status": "proved",
   "theorems": [
    "broadcast_delivers",
    "broadcast_bad_root",
    "all_reduce_delivers",
    "reduce_delivers",
    "reduce_scatter_delivers",
    "unused_op_rejected"
   ],
   "note": "For every world size, tensor size and contents over the reals; what the NCCL library itself computes is trusted from its documentation, and a call is taken to be finished."
  },
  {
   "property": "C64",
   "status": "partial",
   "theorems": [
    "C64_same_type_partial",
    "C64_same_type_compare_partial",
    "C64_mixed_reads_bytes",
    "C64_wider_operand_cut",
    "C64_narrower_operand_refuted",
    "C64_narrower_compare_refuted",
    "C64_equal_size_bits_refuted",
    "C64_copy_checks"
   ],
   "note": "Proved for operands of the same type. For different types the claim is refuted: nothing is converted or refused, the bytes of the second operand are reinterpreted, and a narrower second operand is always read past its end. copy_ does check."
  },
  {
   "property": "C65",
   "status": "partial",
   "theorems": [
    "attention_value_partial",
    "attention_sees",
    "attention_weights",
    "attention_is_mean",
    "attention_hidden_irrelevant",
    "attention_causal_partial",
    "attention_blind_query_nan",
    "attention_rejects_two_masks",
    "attention_rejects_mask_shape",
    "attention_rejects_key_size",
    "attention_dropout_refuted"
   ],
   "note": "Over the reals with -inf scores, for query, key and value with the same non-empty batch shape. The dropout part is refuted: a weight is dropped with probability 1 - p. A query that sees no key makes the result NaN."
  },
  {
   "property": "C66",
   "status": "partial",
   "theorems": [
    "fill_sets_every_element",
    "masked_fill_value",
    "masked_fill_forms_agree_partial",
    "masked_fill_rejects_shape",
    "masked_fill_out_smaller_refuted",
    "masked_fill_out_larger_refuted",
    "fill_offset_range",
    "fill_offset_outside_refuted",
    "fill_offset_needs_scalar"
   ],
   "note": "Everything except the refusals: the output form does not look at the output's shape and filling a range does not look at the size (both refuted)."
  },
  {
   "property": "C67",
   "status": "partial",
   "theorems": [
    "compare_meaning",
    "maximum_greatest_partial",
    "minimum_least_partial",
    "maximum_nan_refuted",
    "clamp_one_side",
    "clamp_between",
    "sign_of_number_partial",
    "sign_zero_refuted",
    "relu_of_number_partial",
    "relu_nan_refuted"
   ],
   "note": "Whole for the comparisons and clamp; maximum and minimum lose a NaN in the second operand, the sign of 0 is -1, and the two relus differ on NaN (all refuted)."
  },
  {
   "property": "C68",
   "status": "partial",
   "theorems": [
    "backward_is_derivative_partial",
    "backward_differentiates_program_partial",
    "program_values_partial",
    "inplace_operator_gradient_refuted",
    "inplace_operand_gradient_refuted",
    "inplace_requires_grad_refuted",
    "overwritten_operand_refuted",
    "sums_used_again_refuted"
   ],
   "note": "Proved for all programs whose in-place statements have no gradient at stake, without reductions of scalars that require grad, and whose operands of sums are used once; each exclusion has a refutation: an in-place operator's gradient is lost, fill_ of a saved operand changes gradients, a sum's operand used again gets a wrong gradient."
  },
  {
   "property": "C69",
   "status": "partial",
   "theorems": [
    "operations_make_one_tensor_partial",
    "inplace_operators_touch_one_tensor",
    "fill_touches_one_tensor_partial",
    "fill_touches_one_tensor_refuted",
    "reduction_of_scalar_refuted",
    "no_grad_reshape_refuted",
    "no_grad_reshape_always_fails"
   ],
   "note": "Proved for sin, cos, reshape, +, -, *, /, pow and for reductions of scalars that require no grad; a reduction of a scalar returns its argument, so it replaces its history or shares later fills, and in no-grad mode reshapes and such reductions fail on tensors that require grad (all refuted)."
  },
  {
   "property": "C70",
   "status": "partial",
   "theorems": [
    "cuda_elementwise_partial",
    "cuda_elementwise_as_cpu_partial",
    "cuda_elementwise_rejects_partial",
    "cuda_unary_partial",
    "cuda_unary_inplace_partial",
    "cuda_unary_backward_partial",
    "cuda_unary_empty_refuted",
    "cuda_unary_large_refuted"
   ],
   "note": "For shapes without zero sizes up to 2^32 elements, for every schedule. Empty tensors abort the process and elements beyond 2^32 are not written (both refuted)."
  },
  {
   "property": "C71",
   "status": "partial",
   "theorems": [
    "cuda_fill_partial",
    "cuda_fill_range_partial",
    "cuda_fill_masked_partial",
    "cuda_fill_masked_rejects_partial",
    "cuda_fill_masked_out_refuted",
    "cuda_linspace_partial",
    "cuda_linspace_rejects_partial",
    "cuda_random_fill_partial",
    "cuda_random_fill_stream_partial",
    "cuda_manual_seed_refuted",
    "cuda_dropout_partial",
    "cuda_dropout_masked_partial",
    "cuda_fill_empty_refuted",
    "cuda_fill_large_refuted"
   ],
   "note": "For 1 to 2^32 elements, for every schedule. False: seeding again gives other numbers (the sequence counter is not reset), the masked fill into an output does not check the output's shape, empty tensors abort, elements beyond 2^32 are not written (all refuted)."
  },
  {
   "property": "C72",
   "status": "partial",
   "theorems": [
    "cuda_permute_partial",
    "cuda_permute_all_partial",
    "cuda_permute_rejects_partial",
    "cuda_permute_negative_refuted",
    "cuda_transpose_partial",
    "cuda_transpose_rejects_partial",
    "cuda_transpose_tall_refuted",
    "cuda_tril_partial",
    "cuda_triu_partial",
    "cuda_tril_batch_refuted",
    "cuda_expand_partial",
    "cuda_gather_partial",
    "cuda_gather_scatter_rejects_partial",
    "cuda_gather_unchecked_refuted",
    "cuda_scatter_one_of_partial",
    "cuda_scatter_partial",
    "cuda_scatter_any_refuted",
    "cuda_index_select_partial",
    "cuda_repeat_interleave_partial",
    "cuda_select_repeat_reject_partial",
    "cuda_repeat_count_rejected_partial",
    "cuda_index_tensors_read_partial",
    "cuda_index_tensors_put_partial",
    "cuda_index_tensors_put_any_refuted",
    "cuda_index_tensors_put_rejects_partial"
   ],
   "note": "For 1 to 2^32 elements, for every schedule, with valid indices. False: negative dimensions of permute read outside the array of strides; gather and scatter do not check index values; of several values written to one element any may stay; matrices of more than 2097120 rows cannot be transposed and batches of more than 65535 matrices cannot be cut to a triangle (all refuted)."
  },
  {
   "property": "C73",
   "status": "partial",
   "theorems": [
    "cuda_sum_all_partial",
    "cuda_sum_scalar",
    "cuda_sum_all_large_refuted",
    "cuda_sum_empty_refuted",
    "cuda_sum_dim_partial",
    "cuda_sum_dim_rejects",
    "cuda_sum_rows_refuted",
    "cuda_sum_dims_rejects",
    "cuda_sum_dims_refuted",
    "cuda_sum_dims_partial"
   ],
   "note": "Over a commutative ring, for every schedule: all elements up to 512*512 of them; one middle dimension of any size; the first or last dimension of up to 512 elements, or of up to 512*512 if it is the whole tensor. False above that: the merge rounds read and write one buffer, and some order of the blocks gives a wrong sum. False over two or more dimensions: the kernel writes past the end of the result; right if the buffer is as large as the operand. False of an empty tensor: the launch is refused."
  },
  {
   "property": "C74",
   "status": "partial",
   "theorems": [
    "cuda_mean_all_partial",
    "cuda_var_all_partial",
    "cuda_mean_scalar",
    "cuda_var_scalar",
    "cuda_mean_dim_partial",
    "cuda_var_dim_partial",
    "cuda_mean_dims_rejects",
    "cuda_mean_dims_refuted",
    "cuda_var_dims_refuted"
   ],
   "note": "Over the real numbers, for every schedule: all elements, and one dimension, of the sizes for which the sum is right (C73). False over two or more dimensions: the sum the mean starts with writes past the end of its result, for every tensor."
  },
  {
   "property": "C75",
   "status": "partial",
   "theorems": [
    "cuda_max_all_partial",
    "cuda_min_all_partial",
    "cuda_extreme_scalar",
    "cuda_max_below_refuted",
    "cuda_max_all_large_refuted",
    "cuda_max_empty_refuted",
    "cuda_argmax_partial",
    "cuda_argmin_partial",
    "cuda_argmax_scalar",
    "cuda_argmax_lowest_refuted",
    "cuda_argmax_tie_refuted",
    "cuda_max_dim_partial",
    "cuda_min_dim_partial",
    "cuda_max_dim_last",
    "cuda_min_dim_last",
    "cuda_max_dim_tie_refuted",
    "cuda_max_dim_rejects",
    "cuda_max_dim_scalar"
   ],
   "note": "For every schedule and total order: an attained extreme and a position of it, for the sizes for which the sums are right (C73) and where some element is above the initial value, the least finite number (for the value alone: not below it). False: the position is not the first (over a dimension of fewer than 512 elements it is the last), -1 if no element is above the initial value, the initial value itself if all are minus infinity; with more than 512 * 512 elements a maximum can be lost to a race."
  },
  {
   "property": "C76",
   "status": "partial",
   "theorems": [
    "cuda_softmax_partial",
    "cuda_log_softmax_partial",
    "cuda_softmax_cpu_partial",
    "cuda_softmax_backward_partial",
    "cuda_log_softmax_backward_partial",
    "cuda_softmax_gradient_partial",
    "cuda_log_softmax_gradient_partial",
    "cuda_softmax_rejects",
    "cuda_softmax_backward_rejects",
    "cuda_softmax_wide_refuted",
    "cuda_next_pow2",
    "cuda_next_pow2_refuted"
   ],
   "note": "For every schedule and every shape whose grid the device accepts: at most 65535 elements per index after the dimension, and before it for lines above 1024 elements. Beyond that, and for tensors with no line, the launch is refused and the result never written (refuted). Over the reals: no rounding, no half precision."
  },
  {
   "property": "C77",
   "status": "partial",
   "theorems": [
    "cuda_rms_norm_partial",
    "cuda_layer_norm_partial",
    "cuda_norm_cpu_partial",
    "cuda_layer_norm_race_refuted",
    "cuda_norm_rejects",
    "cuda_norm_undefined_refuted",
    "cuda_norm_rows_refuted"
   ],
   "note": "For every schedule RMS norm is the formula for every row length, layer norm for rows of at most 32 or more than 1024 elements. Layer norm of rows of 33 to 1024 elements is false: the second block reduction overwrites the shared array while warps may still read the mean from it (cuda_layer_norm_race_refuted). Undefined for scalars and an empty last dimension, refused by the device for no rows or more than 2^31-1. Real numbers, no half precision."
  },
  {
   "property": "C78",
   "status": "partial",
   "theorems": [
    "cuda_rope_table_partial",
    "cuda_rope_apply_partial",
    "cuda_rope_cpu_partial",
    "cuda_rope_rejects",
    "cuda_rope_position_refuted",
    "cuda_rope_empty_refuted"
   ],
   "note": "For every schedule of the launches: the table is the cosines and sines, applying one rotates each pair, and both agree with the CPU model. Missing: positions outside the table are read out of bounds instead of refused (cuda_rope_position_refuted); empty tensors and tables, and sequences of more than 65535*512 positions, make a launch CUDA refuses while the CPU handles them (cuda_rope_empty_refuted). Real arithmetic."
  },
  {
   "property": "C79",
   "status": "partial",
   "theorems": [
    "cuda_im2col_partial",
    "cuda_col2im_partial",
    "cuda_windows_single",
    "cuda_windows_reject_rank",
    "cuda_windows_empty_refuted"
   ],
   "note": "For every schedule and every size with 0 < elements <= 2^32: the pixel and sum formulas, and equality with the CPU model. Missing: an empty result makes a launch CUDA refuses, where the CPU returns it (cuda_windows_empty_refuted). Elements of a commutative ring (no rounding)."
  },
  {
   "property": "C80",
   "status": "partial",
   "theorems": [
    "cuda_matmul_2d_partial",
    "cuda_matmul_batched_partial",
    "cuda_matmul_vectors_partial",
    "cuda_matmul_row_vector_partial",
    "cuda_matmul_column_vector_partial",
    "cuda_matmul_as_cpu_partial",
    "cuda_matmul_rejects_scalar",
    "cuda_matmul_rejects_inner_size",
    "cuda_matmul_rejects_batches",
    "cuda_matmul_empty_refuted",
    "cuda_matmul_large_refuted",
    "cuda_matmul_batch_rank_refuted"
   ],
   "note": "Proved for sizes from 1 below 2^31, with batch shapes of equal length, one missing, or nothing to repeat. False otherwise: an empty sum or an empty result aborts (the CPU answers), sizes are cut to 32 bits, and batch shapes of different lengths that have to be repeated are matched wrongly, as on the CPU. What cuBLAS does is taken from its manual."
  },
  {
   "property": "C81",
   "status": "partial",
   "theorems": [
    "silu_mul_partial",
    "cuda_silu_mul_partial",
    "cuda_silu_mul_as_cpu_partial",
    "silu_mul_rejects_odd",
    "silu_mul_empty_refuted"
   ],
   "note": "Proved for h > 0 and, on the GPU, up to 2^32 result elements. A last dimension of size 0 divides by zero on the CPU and aborts on the GPU; a scalar reads outside its shape. No rounding."
  },
  {
   "property": "C82",
   "status": "partial",
   "theorems": [
    "mnist_items_partial",
    "transform_pointwise",
    "mnist_rejects_magic",
    "mnist_missing_file",
    "mnist_truncated_refuted",
    "mnist_header_refuted",
    "mnist_bounds_refuted"
   ],
   "note": "Proved for every pair of well-formed files with at least one pixel per image and counts, sizes and pixels per image below 2^31. False beyond: a file cut short after its images began is accepted and its last image repeated (mnist_truncated_refuted), a file cut short in its header, images without pixels and an item past the end are undefined behaviour. No rounding."
  },
  {
   "property": "C83",
   "status": "partial",
   "theorems": [
    "init_parameters_partial",
    "init_seeded_same",
    "fans_of_weight",
    "init_repeats_refuted",
    "init_no_inputs_refuted"
   ],
   "note": "Ranges, constants and shapes proved for every module tree without layers of zero inputs, every generator and state; reproducibility from a seed proved. Independence is false: every fill copies the engine, so after a seed is set equal layers start out equal, a bias repeats the beginning of its weight and all uniform weights are multiples of each other (init_repeats_refuted). A layer without inputs breaks a precondition of the C++ library (init_no_inputs_refuted). CPU tensors, no rounding."
  },
  {
   "property": "C84",
   "status": "partial",
   "theorems": [
    "cuda_sort_stable_partial",
    "cuda_sort_as_cpu_partial",
    "cuda_topk_partial",
    "cuda_sort_rejects",
    "cuda_topk_rejects",
    "stable_contract_met",
    "cuda_cumsum",
    "cuda_cumsum_rejects",
    "cuda_sort_nan_refuted"
   ],
   "note": "Sort and topk need a comparison that is a strict weak ordering of the values that occur, so no NaN (cuda_sort_nan_refuted); cumsum is over a commutative ring (no rounding) and fewer than 2^31 rows."
  },
  {
   "property": "C85",
   "status": "partial",
   "theorems": [
    "program_gradients_partial"
   ],
   "note": "For tensor programs of any length over sixteen functions, over the reals. Missing: programs in which an operand of a sum (or the first of a difference, or the argument of a dropout that does nothing) is used elsewhere, where C22 refutes the claim; a negative log likelihood that is not the result itself (C51 refutes it); operands whose broadcast only adds leading ones (C08 refutes it); in-place operations (C68 has them for scalars); the other functions."
  },
  {
   "property": "C86",
   "status": "partial",
   "theorems": [
    "sgd_step_descends_partial"
   ],
   "note": "Over the reals, for the programs of C85; missing are the programs C85 does not cover (C22, C51 and C08 have why)."
  },
  {
   "property": "C87",
   "status": "partial",
   "theorems": [
    "ddp_training_partial",
    "elements_numbered",
    "ddp_training_refuted"
   ],
   "note": "Over the reals; every rank must get a gradient for every parameter and the buckets must become full in the same order on all ranks. Refuted: a parameter without a gradient switches averaging off without an error and the replicas drift apart; different bucket orders and parameters without elements are refuted for C41."
  },
  {
   "property": "C88",
   "status": "proved",
   "theorems": [
    "half_arithmetic_correctly_rounded",
    "bf16_arithmetic_correctly_rounded",
    "half_nearest",
    "bf16_nearest",
    "half_unary",
    "bf16_unary",
    "half_tensors",
    "bf16_tensors"
   ],
   "note": "Against Flocq's IEEE operations of the formats (11, 16) and (8, 128), for every choice of NaN payloads. Host code path; tensors without zero sizes (the zero-size cases are C06 and C07)."
  },
  {
   "property": "C89",
   "status": "partial",
   "theorems": [
    "half_of_int_correctly_rounded",
    "bf16_of_int_partial",
    "bf16_of_int_refuted",
    "half_order",
    "bf16_order",
    "half_eq_partial",
    "bf16_eq_partial",
    "half_eq_refuted",
    "bf16_eq_refuted",
    "half_limits_correct",
    "bf16_limits_partial",
    "bf16_snan_refuted"
   ],
   "note": "Refuted: 16842753 as a bfloat16 is rounded twice and ends on the farther neighbour; == on two variables compares bits, so 0 == -0 is false and NaN == NaN true; the signalling NaN of bfloat16 is infinity. Proved: integers for half without bound, for bfloat16 up to 2^24; the order; equality of other numbers; all other limits."
  },
  {
   "property": "C90",
   "status": "partial",
   "theorems": [
    "overlap_same_partial",
    "overlap_never_stuck",
    "overlap_runs_end",
    "async_all_reduce",
    "reduce_scatter_refuted",
    "reduce_scatter_not_waiting",
    "no_wait_refuted"
   ],
   "note": "Proved for every script that waits before it touches the buffers handed to NCCL. Missing for reduceScatter: the buffer it sends is a temporary which is freed on return, so a script that obeys the rule for its own tensors can still overwrite it (refuted by a schedule)."
  },
  {
   "property": "C91",
   "status": "proved",
   "theorems": [
    "ddp_overlap",
    "ddp_script",
    "ddp_incomplete_pass_refuted"
   ],
   "note": "A pass that leaves a bucket incomplete is outside the statement; the last theorem shows that the next pass then writes a buffer that is still being reduced."
  },
  {
   "property": "C92",
   "status": "partial",
   "theorems": [
    "waited_and_read_partial",
    "barrier_refuted"
   ],
   "note": "Refuted: barrier() only makes the compute stream wait, the rank itself goes on. Proved: after a wait and a later read of any tensor, every rank has started that collective. The first collective of a process also waits for all ranks while the communicator is made; that is not modelled."
  },
  {
   "property": "C93",
   "status": "partial",
   "theorems": [
    "work_completed_partial",
    "work_wait_timeout_partial",
    "work_wait_returns",
    "work_wait_refuted",
    "work_timed_out_refuted",
    "work_timeout_from_start_refuted"
   ],
   "note": "Proved: isCompleted before any wait, the result of the first wait with a timeout, and that it returns. Refuted: wait() without a timeout marks the work as completed at once; after a timeout the work counts as completed and the next wait succeeds and clears the error; the timeout counts from the start of the operation, not from the call."
  },
  {
   "property": "C94",
   "status": "partial",
   "theorems": [
    "pg_tcp_port_partial",
    "pg_tcp_default_port",
    "pg_file",
    "pg_env_partial",
    "pg_rejects",
    "pg_second_init_fails",
    "pg_destroy_init",
    "pg_barrier_device",
    "pg_port_wraps_refuted",
    "pg_throws_refuted",
    "pg_rank_outside_refuted",
    "pg_timeout_ignored_refuted",
    "pg_failed_init_refuted",
    "pg_barrier_refuted"
   ],
   "note": "Proved for ports below 65536, numeric environment variables and the NCCL backend. Refuted: larger ports wrap or throw, non-numeric variables throw, ranks outside the group are accepted, the timeout and waitWorkers have no effect, an unsupported backend leaves a group behind, barrier() without devices always fails its assertion."
  },
  {
   "property": "C95",
   "status": "partial",
   "theorems": [
    "comm_ids_agree_partial",
    "comm_all_finish_partial",
    "comm_file_store_refuted",
    "comm_file_store_reused_refuted"
   ],
   "note": "Proved with the TCP store. Refuted with the file store: an id can be read before it is written, which ends in a deadlock on the backend's own mutex; and ids of an earlier group are still in the directory."
  },
  {
   "property": "C96",
   "status": "proved",
   "theorems": [
    "C96_sum",
    "C96_sum_dims",
    "C96_dot",
    "C96_matmul",
    "C96_cumsum",
    "C96_mean",
    "C96_mean_dims",
    "C96_whole_sum",
    "C96_whole_sum_dims",
    "C96_growth",
    "C96_ones_stop_refuted",
    "C96_mean_of_ones_refuted"
   ],
   "note": "Products are of two matrices, without BLAS and without fused multiply-add. The last two theorems show that the growth with n is real: adding ones stops at 2^precision (256 for BFloat16), so the mean of 512 BFloat16 ones is 0.5."
  },
  {
   "property": "C97",
   "status": "partial",
   "theorems": [
    "multinomial_cuda_in_range",
    "multinomial_cuda_draws_partial",
    "multinomial_cuda_usable_partial",
    "sum_from_left",
    "counts_any_order",
    "from_left_is_usable",
    "left_any_order",
    "neighbours_any_order",
    "multinomial_cuda_rejects",
    "multinomial_cuda_order_refuted",
    "multinomial_cuda_tiny_refuted",
    "multinomial_cuda_nothing_left_refuted",
    "multinomial_cuda_no_category_refuted",
    "multinomial_cuda_empty_refuted"
   ],
   "note": "Safety and range hold for all weights. Draws by weight need weights that are zero or from 2^-116 to 2^103, something left to draw, and, with replacement, cumulated sums as from the left: true for the sum from the left, and for whole numbers up to 2^24 in every order of additions. In another order a category of weight zero can be drawn; nothing left to draw is not rejected but gives 0; no categories leave the result unset; no rows or no draws make a launch of no blocks."
  },
  {
   "property": "C98",
   "status": "partial",
   "theorems": [
    "backward_after_drops_partial",
    "backward_refuses_partial",
    "statements_succeed_partial",
    "needed_exists",
    "nothing_leaks_partial",
    "all_freed_partial",
    "sum_of_scalar_refuted",
    "sum_breaks_argument_refuted",
    "sum_of_scalar_leaks_refuted",
    "set_again_refuted",
    "set_after_copy_refuted",
    "off_and_on_refuted",
    "freeze_middle_refuted"
   ],
   "note": "Proved for all programs that do not sum a scalar that requires gradients and do not switch requiresGrad of existing tensors, with one result per operation with a derivative; false for the others (refuted theorems). That needed objects exist is proved for all programs. The 3 clauses are backward_after_drops, backward_refuses and nothing_leaks."
  },
  {
   "property": "C99",
   "status": "partial",
   "theorems": [
    "mse_cuda_value_partial",
    "mse_cuda_rejects_partial",
    "mse_cuda_gradient_partial",
    "mse_cuda_gradient_refuted",
    "nll_cuda_value_partial",
    "nll_cuda_rejects",
    "nll_cuda_gradient_partial",
    "nll_cuda_as_host_partial",
    "nll_cuda_empty_refuted"
   ],
   "note": "Over the reals, for non-empty tensors of at most 2^32 elements (2^18 terms for mean and sum: larger ones are C73's refutation) and buffers that do not overlap. The gradient of mseLoss is false for targets larger than the input; that of nllLoss is right only for the incoming gradient 1, and is treated for matrices."
  }
 ]
}