# A Rocq (Coq 8.16.1) model of keith2018/TinyTorch

This development is a hand-written model: `/repo` was read as text, never built
or run.  It models the C++ code function by function and proves the properties
of `properties.jsonl` about the model, for all inputs, states and schedules the
properties range over.

Contents: [Conventions](#conventions), [Plan and results per
property](#plan-and-results-per-property), [Findings](#findings), [Trusted
base](#trusted-base), [What is modelled and what is
not](#what-is-modelled-and-what-is-not), [Testing the theorems](#testing-the-theorems).

## Conventions

* Files.  `*Model.v` holds the model; every definition cites the file and lines
  it models, or says "Model only".  `*Spec.v` holds the small vocabulary in which
  the properties are stated.  `*Proofs*.v` holds lemmas.  `*Props.v` holds the
  property theorems, an `Example` that meets their hypotheses, and
  `Print Assumptions`.
* Scalars.  Where only the movement of elements matters, elements have an
  arbitrary type.  Where only the algebra matters they are taken in an arbitrary
  commutative ring.  Where analysis matters (derivatives, softmax, RoPE, norms,
  optimizers) they are Coq's reals.  Floating-point rounding is modelled, with
  Flocq, only where a property is about it: half and bfloat16 conversion and
  arithmetic, the errors of sums, products and means, batch
  counts computed with `float`, multinomial's running sums, comparisons of
  elements of every type including NaN and signed zero.
* Outcomes.  Undefined behaviour (access out of bounds, use of uninitialised
  memory, signed overflow, division by zero) is a separate outcome (`UB` or
  `None`), a failed `ASSERT` or an exception is another (`Fail`).  Neither is a
  value that a theorem could rely on.
* False properties.  Where the code violates a property, the property is refuted
  by a theorem named `..._refuted` with a concrete run of the model, and the
  strongest true part found is proved beside it, named `..._partial`.  The
  property then has status "partial" in `MANIFEST.json`, even when everything
  that is true of the code has been proved.
* CUDA.  A kernel launch is a program for every thread; `always l m Q` (GpuSpec.v)
  says that under every schedule the launch is accepted, makes no undefined access,
  ends, and leaves a memory that satisfies Q.
* Names.  `op (tensor_of sh F) = Ok (tensor_of sh' G)` says what an operation
  does to the tensor of shape `sh` whose element at index `i` is `F i`.
  `is_gradient` (GradSpec.v) says that a tensor contains the partial derivatives
  of a function of a tensor; `is_adjoint` (LinearSpec.v) that two linear maps are
  adjoint.

## Plan and results per property

For each property: what is modelled, how it is proved, the theorems, and for a
"partial" property what is missing or false.

### C01 Live allocations of the caching allocator never overlap (proved)

* How: Block list, pools and active map of the caching allocator, with the base
  allocator as an adversary. Inductive invariant over all sequences of calls (blocks
  tile the regions held, pools hold exactly the free blocks).
* Theorems (AllocProps.v): `alloc_never_undefined`, `alloc_live_disjoint_and_inside`,
  `alloc_negative_size_refuted`, `alloc_toggle_refuted`.
* Note: All request sizes 0 <= n < 2^63, every environment. Negative sizes and
  toggling the cache switch are refuted (findings).

### C02 The caching allocator never leaks or double-frees a region of the underlying allocator (proved)

* How: Same model and invariant; the accounting is compared with the base allocator's
  record of regions handed out.
* Theorems (AllocProps.v): `alloc_account`, `alloc_total_is_sum_held`,
  `alloc_release_only_unused`, `alloc_destroy_returns_everything`,
  `alloc_destroy_checks_live`, `alloc_free_unknown_noop`, `alloc_never_undefined`.

### C03 Freed neighbours are always coalesced (proved)

* How: Same invariant, with 'no two adjacent free blocks' and minimality of the block
  chosen.
* Theorems (AllocProps.v): `alloc_account`, `alloc_unused_region_is_one_block`,
  `alloc_unused_region_is_reused`, `alloc_best_fit_from_cache`.
* Note: Requests are matched per size class (<= 1 MiB use 2 MiB regions).

### C04 Reshape-family operations preserve the elements and their order (partial)

* How: The in-place shape operations of TensorImpl, compared with a declarative notion
  of the shapes that match a request.
* Theorems (ShapeProps.v): `reshape_correct_partial`, `reshape_preserves`,
  `flatten_merges_partial`, `flatten_to_end_partial`, `unflatten_splits_partial`,
  `unsqueeze_inserts`, `unsqueeze_rejects`, `squeeze_dim_removes`,
  `squeeze_dim_rejects`, `squeeze_removes`, `reshape_negative_refuted`,
  `flatten_out_of_range_refuted`, `flatten_negative_end_refuted`,
  `unflatten_two_inferred_refuted`.
* Note: Exact for requests with entries >= -1 and in-range dimensions. The full claim
  is false of the code: requests such as [-2,-2] are accepted, flatten reads past the
  shape for out-of-range dims and takes every negative last dimension as the last one,
  unflatten with two -1 is accepted on zero-size tensors.

### C05 Row-major index/offset maps are a bijection (proved)

* How: computeStrides, indicesToOffset, offsetToIndices; induction on the shape.
* Theorems (ShapeProps.v): `rowmajor_index_bijection`,
  `rowmajor_indices_exactly_valid`.

### C06 Broadcast result shapes follow the NumPy/PyTorch rule (partial)

* How: TensorIterator's shape computation; induction from the last dimension.
* Theorems (BcastProps.v): `broadcast_shape_partial`, `broadcast_zero_size_refuted`.
* Note: Exact for shapes without zero-size dimensions; with them the code is wrong and
  order dependent (refuted).

### C07 Element-wise operations read exactly the broadcast-selected elements (partial)

* How: TensorIterator's three loops (scalar, same shape, odometer). Invariant: the
  running offsets are the dot products of coordinates and increments.
* Theorems (BcastProps.v): `elementwise_broadcasts_partial`,
  `elementwise_rejects_partial`, `elementwise_inplace_same_partial`,
  `unary_applies_everywhere`, `elementwise_empty_refuted`.
* Note: All operand counts, shapes without zero sizes, all element functions, out of
  place and in place; zero-size operands read out of bounds (refuted).

### C08 The gradient of a broadcast operand is summed back over the broadcast positions (partial)

* How: reduceGrad and the dimension sums it uses; adjointness by exchanging sums over
  the broadcast fibres.
* Theorems (BcastProps.v): `broadcast_gradient_partial`, `broadcast_gradient_adjoint`,
  `broadcast_operand_shapes`, `broadcast_gradient_rank_refuted`.
* Note: Values proved for every operand shape over any commutative ring; the delivered
  shape is wrong when only leading 1-dimensions differ (refuted).

### C09 Permute and transpose move elements to the permuted index and nothing else (partial)

* How: permute, transpose and FuncPermute's backward; index algebra, a refutation for
  the gradient.
* Theorems (PermProps.v): `permute_moves`, `permute_onto`, `permute_inverse_restores`,
  `permute_inverse_exists`, `permute_all_reverses`, `transpose_swaps`,
  `transpose_rejects`, `permute_gradient_is_permuted_back`, `permute_gradient_partial`,
  `permute_gradient_refuted`.
* Note: Data movement proved for every rank and permutation; the gradient passed back
  is a reshape, which is right only if the permutation moves only size-1 dimensions
  (refuted otherwise).

### C10 split / chunk / narrow cut a tensor without loss, and concat / stack join without loss (partial)

* How: split, chunk, narrow, concat, stack on views with offsets; block decomposition
  of flat lists.
* Theorems (CutProps.v): `split_pieces`, `split_sections_partial`,
  `chunk_pieces_partial`, `chunk_sizes_cover`, `concat_restores`, `narrow_is_range`,
  `narrow_rejects_outside`, `concat_contains`, `split_concat_restores`,
  `concat_rejects_mismatch`, `stack_adds_dimension`, `stack_rejects_mismatch`,
  `vstack_makes_rows`, `vstack_joins_rows`, `hstack_joins`, `split_rejects_uneven`,
  `split_sections_reject`, `chunk_rejects`, `split_negative_sections_refuted`,
  `chunk_empty_refuted`, `split_dim_unchecked_refuted`.
* Note: All shapes, dimensions and contents, on fresh tensors and views; negative
  sections, chunking an empty dimension and an invalid split dimension are not handled
  by the code (refuted).

### C11 Integer indexing returns the addressed sub-tensor of any tensor, including views (partial)

* How: index on views with storage offsets.
* Theorems (IndexProps.v): `index_subtensor_partial`, `index_put_replaces`,
  `index_of_view_refuted`, `index_out_of_range_refuted`.
* Note: Proved for tensors at storage offset 0; indexing a view ignores its offset
  (refuted) and out-of-range indices are accepted (refuted).

### C12 In-place writes never show through another tensor (partial)

* How: Handles, tensor objects and storages with reference counts; invariant over all
  programs of creations, copies, views, drops and in-place writes.
* Theorems (CowProps.v): `shared_storage_is_invisible_partial`,
  `write_not_seen_elsewhere_partial`, `write_seen_by_copies`, `copy_isolated_refuted`.
* Note: All histories of create/copy/clone/slice/drop/in-place write that go through
  copyOnWrite; copy_, tensor-index assignment and unary out-variants write without it
  (refuted).

### C13 A tensor view never reaches outside its storage (partial)

* How: The constructor's bounds check in its own units.
* Theorems (ShapeProps.v): `view_bounds_partial`, `view_bounds_refuted`,
  `view_negative_offset_refuted`.
* Note: Exact for offset 0 and for one-byte elements; false of the code otherwise
  (units mixed, negative offsets accepted).

### C14 expand, gather, scatter, index_select and repeat_interleave address the right elements (partial)

* How: expand, gather, scatter, index_select, repeat_interleave with their counters;
  index algebra.
* Theorems (IndexProps.v): `expand_repeats_partial`, `expand_incompatible_refuted`,
  `gather_reads`, `scatter_writes`, `gather_scatter_reject`, `index_select_picks`,
  `repeat_interleave_repeats`, `index_select_unchecked_refuted`.
* Note: All ranks, shapes, index tensors; expand does not reject incompatible targets
  (refuted).

### C15 Reductions combine exactly the elements of each reduced group (proved)

* How: Reductions over all, one or several dimensions; sums over fibres.
* Theorems (ReduceProps.v): `sum_adds_all`, `sum_dims_adds_groups`, `sum_keepdims`,
  `sum_dims_one_by_one`, `sum_rejects`, `mean_averages_all`,
  `mean_dims_averages_groups`, `mean_rejects`.
* Note: Exact arithmetic (any commutative ring; reals for means); rounding is not
  modelled. Means of empty tensors are excluded (0/0).

### C16 max / min / argmax / argmin return an attained extreme and its first position (partial)

* How: max/min/argmax/argmin scans with their starting values.
* Theorems (ReduceProps.v): `max_all_partial`, `min_all_partial`, `max_dim_partial`,
  `min_dim_partial`, `extreme_dim_rejects`, `max_of_minus_infinity_refuted`,
  `min_dim_of_infinity_refuted`.
* Note: Every total order, shape, dimension; groups consisting only of the infinity on
  the wrong side give the scan's start value (refuted). NaN is not modelled.

### C17 Matrix multiplication is the matrix product for every transpose flag and batch broadcast (partial)

* How: gemm with transposes and leading dimensions, the batched product and its
  broadcast.
* Theorems (LinalgProps.v): `matmul_2d`, `matmul_batched_partial`, `matmul_vectors`,
  `matmul_row_vector`, `matmul_column_vector`, `dot_is_inner_product`,
  `matmul_rejects_scalar`, `matmul_rejects_inner_size`, `matmul_rejects_batches`,
  `matmul_batch_rank_refuted`, `matmul_batch_rank_reads_outside_refuted`,
  `matmul_vector_batch_refuted`, `matmul_empty_batch_refuted`.
* Note: 2-D and vector products exact for all sizes and flags; batches proved when the
  batch ranks agree or one operand is unbatched. Different batch ranks, vector times
  batch and empty batched products are wrong in the code (refuted). Exact arithmetic.

### C18 im2col gathers the sliding windows and col2im is its adjoint (proved)

* How: im2col and col2im; index algebra and adjointness.
* Theorems (LinalgProps.v): `im2col_windows`, `col2im_collects`, `col2im_adjoint`,
  `im2col_single_image`, `im2col_rejects_rank`, `im2col_kernel_too_large_refuted`.
* Note: Every batch, channel count, image, kernel, stride and padding whose kernel
  fits the padded image; reading outside is UB in the model, so success shows it does
  not happen. A kernel too large by less than the stride is accepted (finding).

### C19 conv2d computes the cross-correlation in NCHW layout (partial)

* How: conv2d through im2col and matmul; refutation of the layout, exact result
  otherwise.
* Theorems (LinalgProps.v): `conv2d_channels_last`, `conv2d_nchw_partial`,
  `conv2d_nchw_refuted`, `conv2d_rejects`.
* Note: The values are right for every geometry but stored channels-last; in NCHW the
  claim holds only with one output channel or one position (refuted otherwise).

### C20 max_pool2d returns the window maximum in NCHW layout (partial)

* How: maxPool2d through im2col and max; as C19.
* Theorems (LinalgProps.v): `max_pool_channels_last`, `max_pool_nchw_partial`,
  `max_pool_nchw_refuted`, `max_pool_backward_routes`.
* Note: Window maxima and chosen pixels proved for every geometry, but stored
  channels-last (refuted in NCHW); padding counts as the value 0.

### C21 Backward visits every contributing operation once, after all of its consumers (proved)

* How: buildBackwardGraph on arbitrary acyclic graphs; invariant of Kahn's algorithm.
* Theorems (AutogradProps.v): `backward_order`, `backward_runs_each_once`,
  `recorded_graphs_are_acyclic`.
* Note: Any acyclic graph, shared results and repeated edges included; programs can
  only record acyclic graphs.

### C22 Leaf gradients are the sum over all paths of the products of local derivatives (partial)

* How: The backward pass with gradient tensors as references into a heap; sum over
  paths by induction on the order; refutations for aliasing.
* Theorems (AutogradProps.v): `leaf_gradients_partial`, `leaf_gradients_new_tensors`,
  `paths_are_walks`, `leaf_gradients_refuted`.
* Note: Sum over paths plus the previous gradient, when a rule that hands on the
  incoming tensor itself does so to an input that gets no other gradient. The
  unrestricted statement is false: d = (a + b) + a leaves twice the gradient in b.

### C23 zero_grad followed by backward gives the gradient of that pass only (partial)

* How: The same heap with zeroGrad between passes.
* Theorems (AutogradProps.v): `zero_grad_passes_partial`, `backward_twice_refuted`,
  `zero_grad_shared_refuted`, `zero_grad_intermediate_refuted`.
* Note: Any number of zero_grad/forward/backward passes leaves the last pass's
  gradient, under the same restriction as C22. Two backward passes over one graph do not
  accumulate twice the gradient (4 times for two chained operations).

### C24 Gradient rules of the element-wise operations are the true derivatives (partial)

* How: Forward and backward of the element-wise operations over the reals; Coquelicot
  derivatives under broadcasting.
* Theorems (GradProps.v): `mul_gradient`, `div_gradient`, `pow_gradient_base`,
  `pow_gradient_exponent`, `pow_is_power`, `sin_cos_gradient`, `relu_gradient`,
  `sum_gradient`, `add_gradient_partial`, `sub_gradient_partial`, `add_alpha_refuted`.
* Note: Vector-Jacobian products of whole broadcast tensors over the reals (no
  rounding, no zero sizes). Refuted for add/sub with alpha different from 1. gelu, silu,
  sqrt, maximum and minimum have no backward (NOT_IMPLEMENTED); softmax and log-softmax
  are under C43.

### C25 No-grad scopes nest and restore (proved)

* How: NoGradGuard nesting; induction over programs.
* Theorems (AutogradProps.v): `no_grad_nests`.
* Note: Programs with nested scopes, exceptions and handlers, any depth.

### C26 Gradient hooks: each registered hook runs once per backward and unregistering removes exactly that hook (partial)

* How: The hook vector and its identifiers.
* Theorems (AutogradProps.v): `hooks_run_partial`,
  `first_unregister_removes_that_hook_partial`, `hooks_shift_refuted`,
  `hooks_of_results_refuted`.
* Note: Leaves, hooks unregistered newest first. Otherwise identifiers shift and
  another hook is removed; hooks of non-leaf tensors never run.

### C27 float32 to bfloat16 conversion is round-to-nearest-even, and back is exact (proved)

* How: BFloat16.h's integer code against Flocq's rounding; case analysis on exponents.
* Theorems (FloatProps.v): `bf16_widen_exact`, `bf16_narrow_rounds_to_nearest_even`,
  `bf16_round_trip`, `bf16_narrow_monotone`.
* Note: All float32 and bfloat16 bit patterns, values given by Flocq's IEEE formats;
  the host (non-CUDA) branch of the conversions.

### C28 Half precision conversion is exact one way and correctly rounded the other (proved)

* How: Half.h's conversions, both the float-arithmetic and the integer versions,
  against Flocq; reduction to intervals of bit patterns.
* Theorems (FloatProps.v): `half_widen_exact`, `half_widen_bits_exact`,
  `half_narrow_rounds_to_nearest_even`, `half_round_trip`, `half_narrow_monotone`.
* Note: All float32 and half bit patterns; float operations in the conversion code are
  IEEE binary32 operations rounding to nearest even (Flocq).

### C29 A saved module loads back identically (proved)

* How: Serializer::save and load on byte lists; codec round trip.
* Theorems (SerialProps.v): `load_restores`, `reload_restores`.
* Note: All names, shapes, element types, contents and orders; the file must be
  smaller than 2^63 bytes and writing it must not fail (save does not check). Names of
  the target sharing one tensor must have been saved with equal contents.

### C30 Loading an invalid or mismatching file is rejected without reading or writing out of bounds (partial)

* How: The same, on arbitrary bytes.
* Theorems (SerialProps.v): `load_saved_partial`, `load_truncated_partial`,
  `load_wrong_magic`, `load_wrong_version`, `load_empty_file`, `load_any_file_partial`,
  `load_strict_complete`, `load_cut_headers_refuted`, `load_offset_wraps_refuted`,
  `load_dtype_truncated_refuted`, `load_not_atomic_refuted`.
* Note: Mismatches and truncated data are rejected exactly; but every file cut inside
  its headers and an offset near 2^64 are read out of bounds, the element type is
  truncated to a byte, and a rejected load can have overwritten tensors (all refuted).

### C31 StepLR follows its closed form (proved)

* How: Scheduler and StepLR; induction on the number of steps.
* Theorems (OptimProps.v): `steplr_closed_form`, `steplr_resumed`,
  `steplr_zero_step_size_refuted`, `steplr_step_to_epoch_refuted`.
* Note: Exact real arithmetic. A zero step size is undefined behaviour and step(epoch)
  repeated for one epoch compounds; both are shown.

### C32 Optimizer updates follow their published recurrences for any number of steps (partial)

* How: SGD, Adagrad, RMSprop, AdaDelta, Adam, AdamW with the aliasing of their
  buffers; refinement to the published recurrences over all training scripts.
* Theorems (OptimProps.v): `sgd_follows_recurrence_partial`,
  `sgd_momentum_without_decay`, `sgd_momentum_refuted`, `adagrad_follows_recurrence`,
  `rmsprop_follows_recurrence_partial`, `rmsprop_centered_refuted`,
  `adadelta_follows_recurrence`, `adam_follows_recurrence`,
  `adamw_follows_recurrence_partial`, `adamw_without_gradient_refuted`,
  `only_steps_change_parameters`, `unregistered_parameters_unchanged`,
  `parameters_do_not_interfere`, `no_gradient_no_change`.
* Note: False as stated for SGD with momentum and no weight decay (the buffer is the
  gradient tensor until the second step), centred RMSprop (no square root) and AdamW
  (decays parameters without gradient); those cases are refuted, everything else is
  proved in exact real arithmetic.

### C33 A data loader epoch visits every sample exactly once (partial)

* How: DataLoader with any shuffle and the float computation of the batch count
  (Flocq).
* Theorems (DataProps.v): `loader_epoch_partial`, `loader_visits_all_partial`,
  `loader_drop_last`, `loader_each_sample_once_partial`, `random_sampler_permutes`,
  `loader_large_refuted`, `loader_zero_batch_refuted`.
* Note: Up to 2^24 samples (without dropLast) and items with a fixed number of
  tensors; above that the float quotient loses samples, which is refuted at 2^24+1.
  std::shuffle is any sequence of exchanges.

### C34 The distributed sampler gives all ranks equally many samples and jointly covers the dataset (partial)

* How: DistributedSampler likewise.
* Theorems (DataProps.v): `sampler_shares_partial`, `sampler_covers_partial`,
  `sampler_drop_last`, `sampler_padding_refuted`, `sampler_large_refuted`.
* Note: Up to 2^24 samples and padding no longer than the dataset (in particular at
  least as many samples as ranks); otherwise undefined behaviour (n=1, 3 ranks) or a
  lost sample (n=2^25+1, 2 ranks), both refuted.

### C35 The TCP store behaves like one linearizable map (partial)

* How: The server's handlers as critical sections of interleaved threads; the history
  is linearised by the order of the critical sections.
* Theorems (StoreProps.v): `store_linearizable_partial`, `store_add_totals_partial`,
  `store_adders_distinct_partial`, `store_executes_partial`, `store_counter_executes`,
  `store_add_text_refuted`, `store_add_overflow_refuted`.
* Note: Every execution of the server under any scheduling is linearizable with
  respect to a sequential map; adders get distinct consecutive totals. Partial because
  the real server terminates on an addition to text that is not a number or on overflow
  (refuted theorems); shutdown is not modelled.

### C36 TCP store messages decode to what was encoded (proved)

* How: Client and server encodings, with sends and receives split arbitrarily;
  decoding is proved to be the inverse.
* Theorems (WireProps.v): `wire_send`, `wire_send_all`, `wire_request`,
  `wire_requests`, `wire_answer`, `wire_broken`, `wire_prefix_free`.
* Note: Requests and answers, any fragmentation, any sequence; little-endian hosts on
  both sides.

### C37 A store waiter is woken once its key is present (partial)

* How: Waiters, condition variables and timeouts in the same step machine; progress
  from every reachable state.
* Theorems (StoreProps.v): `store_no_sleep_partial`, `store_wakes_partial`,
  `store_lost_wakeup_refuted`, `store_lost_wakeup_get_refuted`.
* Note: Holds as long as no awaited key is deleted; with set, delete, set again a
  waiter sleeps on although its key is present.

### C38 The TCP store server keeps accepting clients (partial)

* How: The accept loop and its mutex.
* Theorems (StoreProps.v): `accept_partial`, `accept_refuted`.
* Note: Holds up to 129 connections; the 130th makes the accept loop lock a mutex it
  holds.

### C39 The file store's add is atomic across processes and a key never set is never reported present (partial)

* How: The file operations as steps of several processes on a file system with POSIX
  record locks.
* Theorems (FileProps.v): `file_set_get_linearizable_partial`, `file_alone_partial`,
  `file_get_absent`, `file_delete_refuted`, `file_lost_increment_refuted`,
  `file_mixed_add_refuted`, `file_empty_get_refuted`, `file_ghost_key_refuted`,
  `file_mixed_set_refuted`.
* Note: Set and get alone are linearizable under every interleaving of file-system
  steps; calls that do not overlap behave like a map. Refuted: concurrent add loses
  increments and mixes digits (closing the read handle drops the record lock), deleteKey
  of an absent key reports success and makes it visible meanwhile, get can return an
  empty value nobody wrote.

### C40 Gradient buckets partition the parameters (proved)

* How: Bucket construction; induction over the parameters.
* Theorems (ReducerProps.v): `buckets_partition`, `bucket_slices`, `bucket_limit`,
  `buckets_accepted`.

### C41 Distributed gradients are averaged once, whatever the order in which they become ready (partial)

* How: Hooks in any order on every rank, then the collectives in order of issue;
  refutations for ranks that differ.
* Theorems (ReducerProps.v): `ddp_average_partial`, `ddp_average_one_bucket`,
  `ddp_missing_gradient`, `ddp_backward_twice`, `ddp_average_refuted`,
  `ddp_zero_size_refuted`, `ddp_zero_size_last_refuted`.
* Note: Holds for every arrival order on every rank if the buckets become full in the
  same order on all ranks (always true with one bucket). Refuted otherwise: the n-th
  collective of each rank belong together, so different buckets are added. A parameter
  without elements fails an assertion.

### C42 SmallVector behaves like a list (partial)

* How: SmallVector's inline and heap representation, with references into itself;
  refinement to lists.
* Theorems (SVecProps.v): `svec_like_list_partial`, `svec_push_alias_refuted`,
  `svec_insert_alias_refuted`, `svec_resize_alias_refuted`, `svec_no_inline_refuted`.
* Note: Holds for every program, element type and inline capacity of at least one,
  including absence of undefined behaviour and of leaks, unless an argument refers into
  the vector being changed (push, insert and resize then read a moved or freed element:
  refuted).

### C43 softmax yields a probability distribution and logSoftmax is its logarithm (proved)

* How: softmax and logSoftmax over the reals, with the exponential's overflow;
  gradients through Coquelicot.
* Theorems (SoftmaxProps.v): `softmax_value`, `softmax_distribution`, `softmax_shift`,
  `softmax_order`, `logsoftmax_is_log`, `softmax_gradient`, `logsoftmax_gradient`,
  `softmax_rejects`, `softmax_backward_rejects`, `softmax_sum_range`.
* Note: Every shape, dimension (negative ones too), real input. Overflow of exp is
  modelled (any bound M >= 0), rounding and underflow are not. The gradients include the
  saved output path of the Function classes.

### C44 RoPE is a norm-preserving rotation depending only on relative position in attention scores (partial)

* How: RoPE's tables and application over the reals.
* Theorems (RopeProps.v): `rope_table`, `rope_frequencies`, `rope_scaled_frequencies`,
  `rope_value_partial`, `rope_norm_partial`, `rope_undone_partial`,
  `rope_relative_partial`, `rope_rejects`, `rope_context_refuted`.
* Note: Every shape, input, frequency and offset inside the context (exact real
  arithmetic): rotation, norm, inverse, relative position. Missing because false: the
  position is not checked, so every non-empty input with a row outside the context reads
  outside the table.

### C45 sort and topk return the extreme elements in order with their positions (partial)

* How: sort and topk for any outcome std::sort and std::partial_sort may produce.
* Theorems (SampleProps.v): `sort_row_partial`, `sort_permutes_partial`,
  `topk_row_partial`, `sort_rejects`, `topk_rejects`, `sort_contract_met`,
  `partial_sort_contract_met`, `sort_nan_refuted`.
* Note: Full for values that operator< orders (no NaN), any shape, dimension, k,
  direction, ties, any std::sort/std::partial_sort keeping the C++17 contract. Missing:
  rows holding NaN, for which the comparison breaks the contract (sort_nan_refuted).

### C46 cumsum is the running sum (proved)

* How: cumsum along any dimension.
* Theorems (SampleProps.v): `cumsum_running_sum`, `cumsum_rejects`.
* Note: Every shape, dimension and contents over any commutative ring (no rounding).

### C47 multinomial draws valid categories and never repeats without replacement (partial)

* How: multinomial with Flocq's binary32 for the weights and running sums, for any
  draws.
* Theorems (MultiProps.v): `multinomial_draws_partial`,
  `multinomial_draws_1d_partial`, `multinomial_rejects`, `u1_in_unit`,
  `multinomial_tiny_refuted`, `multinomial_overflow_refuted`,
  `multinomial_negative_refuted`, `multinomial_empty_refuted`.
* Note: Proved in IEEE binary32 with rounding for every number of rows, categories and
  draws, every outcome of the generator and every weight that is zero or between 2^-126
  and 2^103 (both excluded): valid, distinct without replacement, and the category whose
  share of the total contains the random number; rejection when nothing is left to draw.
  Missing because false: a total of at most 2^-126 or an overflowing total returns (or
  clears) the index past the last category, negative weights are accepted, no category
  returns uninitialised memory.

### C48 After manual_seed successive random fills continue one stream (partial)

* How: The generator object and the operations that copy it or refer to it, over any
  engine.
* Theorems (RandProps.v): `seed_reproducible`, `shuffles_continue_partial`,
  `random_fills_repeat_refuted`, `random_fill_twice_refuted`, `unseeded_draws`.
* Note: Reproducibility proved for every sequence of random operations; the shuffles
  of samplers continue one stream. Tensor fills, dropout and multinomial draw from a
  copy of the generator, so each starts the stream again: refuted.

### C49 Operator dispatch never selects an implementation registered for another device or dtype (proved)

* How: The table of implementations and the key computed from the arguments.
* Theorems (DispatchProps.v): `dispatch_no_collision`, `dispatch_exact`,
  `dispatch_key`, `dispatch_bad_list`, `dispatch_all_types`.
* Note: For every registration history and every call.

### C50 Module trees expose every parameter exactly once under a unique path and propagate mode changes (partial)

* How: Trees of modules with addresses; induction on trees.
* Theorems (ModuleProps.v): `named_parameters_exact`, `named_states_exact`,
  `names_unique`, `each_tensor_once`, `train_reaches`, `zero_grad_reaches_partial`,
  `zero_grad_frozen_refuted`, `to_type_reaches`, `to_device_reaches`, `to_both_reaches`,
  `init_reaches`, `module_list_named`, `sequential_chain`, `names_clash_refuted`.
* Note: All of it for every tree, except that zeroGrad fails as soon as one parameter
  does not require a gradient (refuted).

### C51 Loss functions and their gradients agree with their definitions (partial)

* How: mse and nll losses and their gradients.
* Theorems (LossProps.v): `mse_value_partial`, `mse_rejects_partial`,
  `mse_gradient_partial`, `mse_gradient_refuted`, `nll_value_partial`, `nll_rejects`,
  `nll_gradient_partial`, `nll_gradient_refuted`, `nll_gradient_rank3_refuted`,
  `nll_targets_refuted`.
* Note: Values for every shape without zero sizes, input, target and reduction; mse
  gradient for every incoming gradient when the target broadcasts to the input; the nll
  gradient of a matrix is right if and only if the incoming gradient is 1, so the claim
  is refuted for every other incoming gradient, for more than two dimensions with mean,
  and for targets larger than the input in mse. Real arithmetic.

### C52 Dropout keeps the expected scale and the same mask is used in forward and backward (partial)

* How: Dropout for every mask, and its expectation over independent draws.
* Theorems (DropProps.v): `dropout_eval`, `dropout_train_partial`,
  `dropout_gradient_partial`, `dropout_every_mask`,
  `dropout_zeroes_with_probability_p_partial`, `dropout_mean_partial`,
  `expected_is_probability`, `dropout_backward_twice`, `dropout_op_refuted`.
* Note: Every shape without zero sizes, input, p and mask: survivors scaled by
  1/(1-p), same mask and scale in the gradient (which is the derivative), identity in
  evaluation mode, zeroed with probability exactly p and expected value kept when the
  draws are independent. The second entry point used by attention treats p as the
  probability of keeping (refuted). Real arithmetic.

### C53 A linear layer and its gradient are adjoint (partial)

* How: The linear layer and its gradients; adjointness.
* Theorems (LinearProps.v): `linear_value_partial`, `linear_no_bias_partial`,
  `linear_rejects`, `linear_input_gradient_partial`, `linear_weight_gradient_partial`,
  `linear_bias_gradient_partial`, `linear_batched_gradients_refuted`,
  `linear_vector_gradients_refuted`.
* Note: Over every commutative ring: the value and the input gradient (adjoint) for
  every number of leading dimensions, weight and bias gradients (adjoint) for matrices;
  with one leading dimension more, or a vector, the gradients of weight and bias never
  have the right shape (refuted). No zero sizes.

### C54 Saved backward data is consumed in the order it was saved (proved)

* How: The queue of saved values.
* Theorems (AutogradProps.v): `saved_data_in_order`, `saved_data_overrun_reported`,
  `second_backward_reported`.
* Note: All interleavings of saves and reads.

### C55 arange and linspace produce the documented values (partial)

* How: arange and linspace over integers and reals.
* Theorems (FillProps.v): `arange_real`, `arange_real_wrong_way_partial`,
  `arange_int_partial`, `arange_int_wrong_way_partial`, `arange_count`,
  `arange_int_refuted`, `arange_bad_step_refuted`, `linspace_real`,
  `linspace_int_partial`, `linspace_rejects`, `linspace_int_refuted`.
* Note: Real arange: exactly the values before stop, every start, stop, non-zero step;
  linspace: n evenly spaced values with both ends. For integers the claim holds exactly
  when the step divides and is refuted otherwise (the last value is always missing, the
  end of linspace is not reached); a zero step or a step the wrong way is undefined.
  Floating-point rounding is not modelled.

### C56 layer_norm / rms_norm rows are normalised and their affine part applied (partial)

* How: layer norm and rms norm over the reals.
* Theorems (NormProps.v): `layer_norm_value_partial`, `rms_norm_value_partial`,
  `layer_norm_rows_partial`, `rms_norm_rows_partial`, `norm_rows_independent_partial`,
  `norm_rejects`, `norm_weight_size_refuted`, `norm_empty_refuted`.
* Note: Every shape with a non-empty last dimension, every real input, eps > 0, weight
  and bias of matching size. Missing because false: a weight or bias of the wrong size
  is read past its end, a scalar input or rows without elements are undefined behaviour.
  No rounding.

### C57 tril / triu keep exactly one side of the chosen diagonal (proved)

* How: tril and triu.
* Theorems (PermProps.v): `tril_keeps`, `triu_keeps`, `tril_triu_decompose`.

### C58 Collective gather delivers its result to the caller's output tensors (partial)

* How: allGather on explicit memories of all ranks.
* Theorems (CollProps.v): `all_gather_work_partial`, `all_gather_outputs_refuted`,
  `all_gather_short_refuted`.
* Note: The gathered values are in the output of the returned work. The caller's
  output tensors keep their old contents in every world: the statement is refuted.

### C59 Variances and the mean returned with them (partial)

* How: varMean in its three forms over the reals.
* Theorems (ReduceProps.v): `var_mean_all`, `var_mean_dims_partial`,
  `var_mean_shapes_refuted`.
* Note: Values proved for all shapes, dimensions and settings; the mean keeps the
  reduced dimensions even without keepdims (refuted).

### C60 Convolution gradients are the adjoints of the convolution (proved)

* How: conv2d's backward; adjoint of the forward map through im2col/col2im.
* Theorems (LinalgProps.v): `conv2d_backward_adjoint`.
* Note: Exact arithmetic over any commutative ring; the bias part needs a non-empty
  output (with an empty one the forward bias addition itself is undefined, see C07).

### C61 Distributed training starts from the same parameters on every rank (partial)

* How: broadcastParameters on all ranks.
* Theorems (BcastProps.v, ReducerProps.v): `broadcast_parameters_partial`,
  `broadcast_zero_size_refuted`.
* Note: Holds for parameters with at least one element; a bucket of parameters without
  elements fails an assertion.

### C62 Indexing with tensors of indices reads and writes exactly the named positions (partial)

* How: Advanced indexing and its assignment.
* Theorems (AdvProps.v): `index_tensors_read_partial`, `embedding_rows_partial`,
  `index_tensors_put_value_partial`, `index_tensors_put_partial`,
  `index_tensors_put_untouched`, `index_tensors_put_written`,
  `index_tensors_put_get_partial`, `index_tensors_put_rejects`,
  `index_tensors_range_refuted`, `index_tensors_sizes_refuted`,
  `index_tensors_count_refuted`.
* Note: Every shape, number of index tensors and in-range index values; values of the
  wrong size are rejected. Missing because false: out-of-range indices, index tensors of
  different sizes and too many (or no) index tensors are not rejected.

### C63 Collectives leave the reduction of exactly the ranks' values in the caller's tensors (proved)

* How: broadcast, allReduce, reduce, reduceScatter, send and recv on explicit memories
  of all ranks, with NCCL's documented behaviour as the model of NCCL.
* Theorems (CollProps.v): `broadcast_delivers`, `broadcast_bad_root`,
  `all_reduce_delivers`, `reduce_delivers`, `reduce_scatter_delivers`,
  `unused_op_rejected`.
* Note: For every world size, tensor size and contents over the reals; what the NCCL
  library itself computes is trusted from its documentation, and a call is taken to be
  finished.

### C64 Element-wise operations between tensors of different element types are converted or refused (partial)

* How: Storage as bytes; the elements an operation reads when the types of its
  operands differ.
* Theorems (TypedProps.v): `C64_same_type_partial`, `C64_same_type_compare_partial`,
  `C64_mixed_reads_bytes`, `C64_wider_operand_cut`, `C64_narrower_operand_refuted`,
  `C64_narrower_compare_refuted`, `C64_equal_size_bits_refuted`, `C64_copy_checks`.
* Note: Proved for operands of the same type. For different types the claim is
  refuted: nothing is converted or refused, the bytes of the second operand are
  reinterpreted, and a narrower second operand is always read past its end. copy_ does
  check.

### C65 Attention is the softmax-weighted mean of the visible values (partial)

* How: Scaled dot product attention over numbers and minus infinity, with causal,
  boolean and additive masks.
* Theorems (AttnProps.v): `attention_value_partial`, `attention_sees`,
  `attention_weights`, `attention_is_mean`, `attention_hidden_irrelevant`,
  `attention_causal_partial`, `attention_blind_query_nan`,
  `attention_rejects_two_masks`, `attention_rejects_mask_shape`,
  `attention_rejects_key_size`, `attention_dropout_refuted`.
* Note: Over the reals with -inf scores, for query, key and value with the same
  non-empty batch shape. The dropout part is refuted: a weight is dropped with
  probability 1 - p. A query that sees no key makes the result NaN.

### C66 Filling and masked filling change exactly the selected elements (partial)

* How: fill, fillOffset, masked fill, their output variants.
* Theorems (MaskProps.v): `fill_sets_every_element`, `masked_fill_value`,
  `masked_fill_forms_agree_partial`, `masked_fill_rejects_shape`,
  `masked_fill_out_smaller_refuted`, `masked_fill_out_larger_refuted`,
  `fill_offset_range`, `fill_offset_outside_refuted`, `fill_offset_needs_scalar`.
* Note: Everything except the refusals: the output form does not look at the output's
  shape and filling a range does not look at the size (both refuted).

### C67 Comparisons, maximum, minimum, clamp, sign and relu follow the order of the numbers (partial)

* How: Comparisons on bit patterns of every element type; Flocq gives the number each
  pattern stands for.
* Theorems (CmpProps.v): `compare_meaning`, `maximum_greatest_partial`,
  `minimum_least_partial`, `maximum_nan_refuted`, `clamp_one_side`, `clamp_between`,
  `sign_of_number_partial`, `sign_zero_refuted`, `relu_of_number_partial`,
  `relu_nan_refuted`.
* Note: Whole for the comparisons and clamp; maximum and minimum lose a NaN in the
  second operand, the sign of 0 is -1, and the two relus differ on NaN (all refuted).

### C68 backward() gives the derivatives of the whole program (partial)

* How: Whole programs on scalars: handles, tensor objects, recorded functions, saved
  inputs, in-place operators, fills, no-grad mode; the backward pass of C21/C22 on the
  graph recorded; the result is compared with the derivative of a denotational reading
  of the program.
* Theorems (ProgProps.v): `backward_is_derivative_partial`,
  `backward_differentiates_program_partial`, `program_values_partial`,
  `inplace_operator_gradient_refuted`, `inplace_operand_gradient_refuted`,
  `inplace_requires_grad_refuted`, `overwritten_operand_refuted`,
  `sums_used_again_refuted`.
* Note: Proved for all programs whose in-place statements have no gradient at stake,
  without reductions of scalars that require grad, and whose operands of sums are used
  once; each exclusion has a refutation: an in-place operator's gradient is lost, fill_
  of a saved operand changes gradients, a sum's operand used again gets a wrong
  gradient.

### C69 Operations make one new tensor and leave the others alone (partial)

* How: The same programs; which tensors a statement changes.
* Theorems (ProgProps.v): `operations_make_one_tensor_partial`,
  `inplace_operators_touch_one_tensor`, `fill_touches_one_tensor_partial`,
  `fill_touches_one_tensor_refuted`, `reduction_of_scalar_refuted`,
  `no_grad_reshape_refuted`, `no_grad_reshape_always_fails`.
* Note: Proved for sin, cos, reshape, +, -, *, /, pow and for reductions of scalars
  that require no grad; a reduction of a scalar returns its argument, so it replaces its
  history or shares later fills, and in no-grad mode reshapes and such reductions fail
  on tensors that require grad (all refuted).

### C70 Element-wise operations on CUDA tensors equal the CPU operations under every schedule (partial)

* How: GpuModel.v: a machine that runs the threads of a launch in any order, with
  shared memory, barriers and shuffles, where an undefined access is an error state.
  GpuProofs.v: a launch in which no two threads touch one location unless both read it
  (between barriers, for shared memory) ends in one memory under every schedule, by an
  invariant that ties each thread to its run alone. The element-wise kernels are such
  launches.
* Theorems (CudaProps.v): `cuda_elementwise_partial`,
  `cuda_elementwise_as_cpu_partial`, `cuda_elementwise_rejects_partial`,
  `cuda_unary_partial`, `cuda_unary_inplace_partial`, `cuda_unary_backward_partial`,
  `cuda_unary_empty_refuted`, `cuda_unary_large_refuted`.
* Note: For shapes without zero sizes up to 2^32 elements, for every schedule. Empty
  tensors abort the process and elements beyond 2^32 are not written (both refuted).

### C71 Fills, random fills and dropout on CUDA tensors are right under every schedule (partial)

* How: CudaFillModel.v on the machine of C70; the random generator is any function of
  seed, sequence, offset and component. CudaItems.v: a launch whose threads write
  disjoint index-determined locations fills exactly those, by the schedule theorem of
  GpuProofs.v; the four-per-thread index arithmetic is proved to hit each element once.
* Theorems (CudaFillProps.v): `cuda_fill_partial`, `cuda_fill_range_partial`,
  `cuda_fill_masked_partial`, `cuda_fill_masked_rejects_partial`,
  `cuda_fill_masked_out_refuted`, `cuda_linspace_partial`,
  `cuda_linspace_rejects_partial`, `cuda_random_fill_partial`,
  `cuda_random_fill_stream_partial`, `cuda_manual_seed_refuted`, `cuda_dropout_partial`,
  `cuda_dropout_masked_partial`, `cuda_fill_empty_refuted`, `cuda_fill_large_refuted`.
* Note: For 1 to 2^32 elements, for every schedule. False: seeding again gives other
  numbers (the sequence counter is not reset), the masked fill into an output does not
  check the output's shape, empty tensors abort, elements beyond 2^32 are not written
  (all refuted).

### C72 Transforms and indexing of CUDA tensors are right under every schedule (partial)

* How: CudaMoveModel.v on the machine of C70. One lemma per index computation
  (strides, coordinates, merged dimensions) says which element a thread loads and
  stores; the one-load launches then follow from CudaItems.v. The tiled transpose has
  one barrier: CudaTile.v composes two race-free phases through the shared tile. Writes
  through an index are not race-free: CudaMoveProofs3.v shows by any_order (GpuOrder.v)
  that one of the values sent stays, and that each can.
* Theorems (CudaMoveProps.v): `cuda_permute_partial`, `cuda_permute_all_partial`,
  `cuda_permute_rejects_partial`, `cuda_permute_negative_refuted`,
  `cuda_transpose_partial`, `cuda_transpose_rejects_partial`,
  `cuda_transpose_tall_refuted`, `cuda_tril_partial`, `cuda_triu_partial`,
  `cuda_tril_batch_refuted`, `cuda_expand_partial`, `cuda_gather_partial`,
  `cuda_gather_scatter_rejects_partial`, `cuda_gather_unchecked_refuted`,
  `cuda_scatter_one_of_partial`, `cuda_scatter_partial`, `cuda_scatter_any_refuted`,
  `cuda_index_select_partial`, `cuda_repeat_interleave_partial`,
  `cuda_select_repeat_reject_partial`, `cuda_repeat_count_rejected_partial`,
  `cuda_index_tensors_read_partial`, `cuda_index_tensors_put_partial`,
  `cuda_index_tensors_put_any_refuted`, `cuda_index_tensors_put_rejects_partial`.
* Note: For 1 to 2^32 elements, for every schedule, with valid indices. False:
  negative dimensions of permute read outside the array of strides; gather and scatter
  do not check index values; of several values written to one element any may stay;
  matrices of more than 2097120 rows cannot be transposed and batches of more than 65535
  matrices cannot be cut to a triangle (all refuted).

### C73 Sums of CUDA tensors are right under every schedule (partial)

* How: CudaReduceModel.v on the machine of C70, with warp shuffles and a barrier.
  CudaReduceProofs.v shows one block of the merge race-free and folding its 512 values
  (warps by the butterfly of offsets 16..1, then the warps' results through shared
  memory); Proofs2/3/4 compose the rounds, the transposed copy and the
  one-thread-per-result kernels. CudaReduceRaces.v exhibits, by running whole blocks in
  a chosen order (GpuWarp.v), the schedules under which the in-place rounds go wrong.
  CudaReduceMulti.v: the tree in shared memory and the store past the result;
  CudaReduceGroup.v: the enumeration of a group.
* Theorems (CudaReduceProps.v): `cuda_sum_all_partial`, `cuda_sum_scalar`,
  `cuda_sum_all_large_refuted`, `cuda_sum_empty_refuted`, `cuda_sum_dim_partial`,
  `cuda_sum_dim_rejects`, `cuda_sum_rows_refuted`, `cuda_sum_dims_rejects`,
  `cuda_sum_dims_refuted`, `cuda_sum_dims_partial`.
* Note: Over a commutative ring, for every schedule: all elements up to 512*512 of
  them; one middle dimension of any size; the first or last dimension of up to 512
  elements, or of up to 512*512 if it is the whole tensor. False above that: the merge
  rounds read and write one buffer, and some order of the blocks gives a wrong sum.
  False over two or more dimensions: the kernel writes past the end of the result; right
  if the buffer is as large as the operand. False of an empty tensor: the launch is
  refused.

### C74 Means and variances of CUDA tensors are right under every schedule (partial)

* How: CudaMeanModel.v, over R: each host function is the tensors returned and the
  launches in order. CudaMeanProofs.v composes the sums of C73 with the fill and the
  in-place multiplication of C70/C71; Proofs2 adds the squared differences and the
  second sum, keeping track of which buffers each launch leaves alone; Proofs3 proves
  the one-thread-per-result variance kernel (a loop over the whole operand that keeps
  the elements whose destination is the thread) sums the group of C16, which over one
  dimension is a line.
* Theorems (CudaMeanProps.v): `cuda_mean_all_partial`, `cuda_var_all_partial`,
  `cuda_mean_scalar`, `cuda_var_scalar`, `cuda_mean_dim_partial`,
  `cuda_var_dim_partial`, `cuda_mean_dims_rejects`, `cuda_mean_dims_refuted`,
  `cuda_var_dims_refuted`.
* Note: Over the real numbers, for every schedule: all elements, and one dimension, of
  the sizes for which the sum is right (C73). False over two or more dimensions: the sum
  the mean starts with writes past the end of its result, for every tensor.

### C75 Minima and maxima of CUDA tensors are attained and in place, under every schedule (partial)

* How: CudaExtremeModel.v: a word of memory is an element or an index; the shuffles
  exchange both. CudaExtremeProofs.v executes the block kernel (two levels of shuffles
  with a barrier between), giving a pair that Proofs2 shows to be a greatest one among
  the pairs of the threads, or the padding (lowest, -1) exactly if no element is above
  lowest; Proofs3 composes rounds and copies; Proofs4 proves the one-thread-per-result
  scan by induction on the line, where the last of equal elements wins; Proofs5 the host
  functions.
* Theorems (CudaExtremeProps.v): `cuda_max_all_partial`, `cuda_min_all_partial`,
  `cuda_extreme_scalar`, `cuda_max_below_refuted`, `cuda_max_all_large_refuted`,
  `cuda_max_empty_refuted`, `cuda_argmax_partial`, `cuda_argmin_partial`,
  `cuda_argmax_scalar`, `cuda_argmax_lowest_refuted`, `cuda_argmax_tie_refuted`,
  `cuda_max_dim_partial`, `cuda_min_dim_partial`, `cuda_max_dim_last`,
  `cuda_min_dim_last`, `cuda_max_dim_tie_refuted`, `cuda_max_dim_rejects`,
  `cuda_max_dim_scalar`.
* Note: For every schedule and total order: an attained extreme and a position of it,
  for the sizes for which the sums are right (C73) and where some element is above the
  initial value, the least finite number (for the value alone: not below it). False: the
  position is not the first (over a dimension of fewer than 512 elements it is the
  last), -1 if no element is above the initial value, the initial value itself if all
  are minus infinity; with more than 512 * 512 elements a maximum can be lost to a race.

### C76 Softmax of CUDA tensors and its gradient are the formulas, under every schedule (partial)

* How: CudaLineModel.v, over R, with an exp that traps above M. GpuBlock.v proves the
  block reduction (two butterflies of warp shuffles with the warps' results in shared
  memory between) as a rule about all threads of a block; GpuLines.v gives rules for
  blocks of threads that load, publish through shared memory, reduce and store their
  strided shares, and one for the launch. CudaLineProofs.v applies them to the two
  forward kernels (the shift by the maximum cancels), Proofs2 places the lines in the
  tensor, Proofs3 does the backward kernels, with the partial sums of up to 16 blocks
  per line in a second launch. The derivative is that of C43.
* Theorems (CudaLineProps.v): `cuda_softmax_partial`, `cuda_log_softmax_partial`,
  `cuda_softmax_cpu_partial`, `cuda_softmax_backward_partial`,
  `cuda_log_softmax_backward_partial`, `cuda_softmax_gradient_partial`,
  `cuda_log_softmax_gradient_partial`, `cuda_softmax_rejects`,
  `cuda_softmax_backward_rejects`, `cuda_softmax_wide_refuted`, `cuda_next_pow2`,
  `cuda_next_pow2_refuted`.
* Note: For every schedule and every shape whose grid the device accepts: at most
  65535 elements per index after the dimension, and before it for lines above 1024
  elements. Beyond that, and for tensors with no line, the launch is refused and the
  result never written (refuted). Over the reals: no rounding, no half precision.

### C77 Layer norm and RMS norm of CUDA tensors are the formulas, under every schedule (partial)

* How: CudaLineModel.v (kNormSmall, kNormLarge, normCuda), over R. Block by block with
  the rules of GpuLines.v, the launch through the lines of CudaLineProofs2.v. Two
  general theorems about the machine (GpuInsert.v): every schedule of a program with
  extra barriers is a schedule of the program without them (used to exhibit the race of
  layer norm), and in a block of one warp a barrier before a shuffle changes nothing
  (used to prove that rows of at most 32 elements have no race).
* Theorems (CudaNormProps.v): `cuda_rms_norm_partial`, `cuda_layer_norm_partial`,
  `cuda_norm_cpu_partial`, `cuda_layer_norm_race_refuted`, `cuda_norm_rejects`,
  `cuda_norm_undefined_refuted`, `cuda_norm_rows_refuted`.
* Note: For every schedule RMS norm is the formula for every row length, layer norm
  for rows of at most 32 or more than 1024 elements. Layer norm of rows of 33 to 1024
  elements is false: the second block reduction overwrites the shared array while warps
  may still read the mean from it (cuda_layer_norm_race_refuted). Undefined for scalars
  and an empty last dimension, refused by the device for no rows or more than 2^31-1.
  Real numbers, no half precision.

### C78 On the GPU, rotary embeddings are those of the CPU whatever the schedule (partial)

* How: CudaRopeModel.v, over R: the three kernels that build the table and the one
  that applies it. Threads neither wait nor share, so each kernel's effect is read off
  the loads and stores of its threads (CudaItems.covers, with a rule for loops); the
  scaling kernel works in place and leaves some elements alone, done with
  GpuLemmas.linear. The launches are then composed and compared with RopeProofs.v.
* Theorems (CudaRopeProps.v): `cuda_rope_table_partial`, `cuda_rope_apply_partial`,
  `cuda_rope_cpu_partial`, `cuda_rope_rejects`, `cuda_rope_position_refuted`,
  `cuda_rope_empty_refuted`.
* Note: For every schedule of the launches: the table is the cosines and sines,
  applying one rotates each pair, and both agree with the CPU model. Missing: positions
  outside the table are read out of bounds instead of refused
  (cuda_rope_position_refuted); empty tensors and tables, and sequences of more than
  65535*512 positions, make a launch CUDA refuses while the CPU handles them
  (cuda_rope_empty_refuted). Real arithmetic.

### C79 On the GPU, unfolding images into windows and folding them back are those of the CPU whatever the schedule (partial)

* How: CudaWindowModel.v, over a commutative ring. im2col: one thread per (window,
  cell), the digits of its number decoded and matched with LinalgProofs3.v; the 1-D
  lemma CudaWindowProofs.covered says that the positions from ohStart to ohEnd
  (truncated divisions) are exactly those whose window covers a pixel, which turns the
  restricted loops of col2im into the full sum of the CPU.
* Theorems (CudaWindowProps.v): `cuda_im2col_partial`, `cuda_col2im_partial`,
  `cuda_windows_single`, `cuda_windows_reject_rank`, `cuda_windows_empty_refuted`.
* Note: For every schedule and every size with 0 < elements <= 2^32: the pixel and sum
  formulas, and equality with the CPU model. Missing: an empty result makes a launch
  CUDA refuses, where the CPU returns it (cuda_windows_empty_refuted). Elements of a
  commutative ring (no rounding).

### C80 On the GPU, matrix multiplication gives the products of the CPU (partial)

* How: CudaMatmulModel.v. cublasGemm is the contract of cublas<t>gemm and its batched
  forms in the cuBLAS manual: storage by columns, leading dimensions, which arguments
  are refused, one read or write per element of a flat buffer. The code passes its
  operands swapped; CudaMatmulProofs.gemmCuda_fill proves that this computes the product
  by rows for every batch of offsets. CudaMatmulProofs2.needs_spec: the code takes the
  strided routine exactly when both operands have as many batches as the result, and
  then a batch of an operand is a batch of the result (full_ravel); otherwise the
  offsets are those of the CPU (LinalgProofs2.batch_read). The result buffer starts out
  undefined, so an element that is not written would give UB. The order of the call with
  other work on the stream is not modelled.
* Theorems (CudaMatmulProps.v): `cuda_matmul_2d_partial`,
  `cuda_matmul_batched_partial`, `cuda_matmul_vectors_partial`,
  `cuda_matmul_row_vector_partial`, `cuda_matmul_column_vector_partial`,
  `cuda_matmul_as_cpu_partial`, `cuda_matmul_rejects_scalar`,
  `cuda_matmul_rejects_inner_size`, `cuda_matmul_rejects_batches`,
  `cuda_matmul_empty_refuted`, `cuda_matmul_large_refuted`,
  `cuda_matmul_batch_rank_refuted`.
* Note: Proved for sizes from 1 below 2^31, with batch shapes of equal length, one
  missing, or nothing to repeat. False otherwise: an empty sum or an empty result aborts
  (the CPU answers), sizes are cut to 32 bits, and batch shapes of different lengths
  that have to be repeated are matched wrongly, as on the CPU. What cuBLAS does is taken
  from its manual.

### C81 The fused gate (siluMul) is the product of the two halves of every line, the first passed through silu, on both devices (partial)

* How: FusedModel.v, over the reals: the two loops of the CPU with a result buffer
  that starts out undefined, and the kernel with one thread per result element. Proofs:
  BufProofs.fill_tensor and CudaItems.gathers_at.
* Theorems (FusedProps.v): `silu_mul_partial`, `cuda_silu_mul_partial`,
  `cuda_silu_mul_as_cpu_partial`, `silu_mul_rejects_odd`, `silu_mul_empty_refuted`.
* Note: Proved for h > 0 and, on the GPU, up to 2^32 result elements. A last dimension
  of size 0 divides by zero on the CPU and aborts on the GPU; a scalar reads outside its
  shape. No rounding.

### C82 The MNIST data set gives the images and labels of its files (partial)

* How: MnistModel.v: an input stream is the bytes left and a failed flag, read stores
  what there is and fails at the end, a buffer byte never stored is undefined; the loops
  over images and labels, getItem and the transforms. MnistSpec.v writes the two files
  from functions pixel(i,y,x) and label(i). Proofs by induction on the images; a
  transform tree is flattened into the list of its normalizations.
* Theorems (MnistProps.v): `mnist_items_partial`, `transform_pointwise`,
  `mnist_rejects_magic`, `mnist_missing_file`, `mnist_truncated_refuted`,
  `mnist_header_refuted`, `mnist_bounds_refuted`.
* Note: Proved for every pair of well-formed files with at least one pixel per image
  and counts, sizes and pixels per image below 2^31. False beyond: a file cut short
  after its images began is accepted and its last image repeated
  (mnist_truncated_refuted), a file cut short in its header, images without pixels and
  an item past the end are undefined behaviour. No rounding.

### C83 initParameters gives every parameter of a model its documented range, reproducibly (partial)

* How: InitModel.v over the reals, for any random engine and library distributions (a
  record): the fans and the gain of Initializer.cpp, resetParameters of each kind of
  layer, the recursion over submodules, with getGenerator of RandModel.v. Proofs by
  induction on the size of the tree; the bound sqrt 3 * gain / sqrt fan is shown to be 1
  / sqrt fan. Seeded runs are computed in closed form, from which the repetitions
  follow.
* Theorems (InitProps.v): `init_parameters_partial`, `init_seeded_same`,
  `fans_of_weight`, `init_repeats_refuted`, `init_no_inputs_refuted`.
* Note: Ranges, constants and shapes proved for every module tree without layers of
  zero inputs, every generator and state; reproducibility from a seed proved.
  Independence is false: every fill copies the engine, so after a seed is set equal
  layers start out equal, a bias repeats the beginning of its weight and all uniform
  weights are multiples of each other (init_repeats_refuted). A layer without inputs
  breaks a precondition of the C++ library (init_no_inputs_refuted). CPU tensors, no
  rounding.

### C84 Sort, topk and running sums of CUDA tensors (partial)

* How: CudaSampleModel.v. Thrust is modelled by its manual: stable_sort_by_key and
  sort_by_key are any functions on lists of pairs that keep the promises of
  CudaSampleSpec.v (met by insertion sort), for_each_n runs its calls in any
  interleaving, inclusive_scan adds from left to right (its order does not matter in a
  ring). CudaSampleProofs.segments_sorted: after s segments exactly the lines before s
  are sorted and the others untouched; from it sortCuda equals the row-by-row sort of
  the CPU, whose theorems apply. Stability: the stable contract keeps the elements
  equivalent to x in order, and the positions are increasing in the input. Cumsum: the
  loads and stores of one scan in closed form (plan_scan), then either one launch after
  another or one launch with a thread per row.
* Theorems (CudaSampleProps.v): `cuda_sort_stable_partial`,
  `cuda_sort_as_cpu_partial`, `cuda_topk_partial`, `cuda_sort_rejects`,
  `cuda_topk_rejects`, `stable_contract_met`, `cuda_cumsum`, `cuda_cumsum_rejects`,
  `cuda_sort_nan_refuted`.
* Note: Sort and topk need a comparison that is a strict weak ordering of the values
  that occur, so no NaN (cuda_sort_nan_refuted); cumsum is over a commutative ring (no
  rounding) and fewer than 2^31 rows.

### C85 backward() of a scalar computed by a whole tensor program leaves the true gradient in every leaf (partial)

* How: NetModel.v: programs are lists of statements on numbered tensors; forward and
  backward of each function are the models of the other areas (GradModel, SoftmaxModel,
  LinalgModel, LinearModel, DropModel, LossModel), recording is Function.h, and
  backward() is AutogradModel's engine with tensors as gradients. NetSpec.v: the kinds
  of tensors a program makes, where it is differentiable, and the result as a function
  of the leaves. NetLaw.v states what each function has to satisfy (value, backward rule
  as the adjoint of the derivative, derivative along a curve); NetOps*.v prove it for
  each; NetProofs3-4 give every tensor a slope along a curve of leaves, NetProofs5-6
  show that the recorded graph pairs gradients with slopes (the rule of the negative log
  likelihood, which is not linear, is replaced by one that agrees on the start value),
  and leaf_gradients_partial of C22 with the conservation law leaves_pair finishes.
* Theorems (NetProps.v): `program_gradients_partial`.
* Note: For tensor programs of any length over sixteen functions, over the reals.
  Missing: programs in which an operand of a sum (or the first of a difference, or the
  argument of a dropout that does nothing) is used elsewhere, where C22 refutes the
  claim; a negative log likelihood that is not the result itself (C51 refutes it);
  operands whose broadcast only adds leading ones (C08 refutes it); in-place operations
  (C68 has them for scalars); the other functions.

### C86 A small enough step of SGD lowers the loss (partial)

* How: StepModel.v adds the loop of SGD::doStep on the leaves of a program of
  NetModel.v. StepProofs.back_all is the chain rule of C85 along a curve on which all
  leaves move; along theta - lr * grad the slope at 0 is minus the sum of the squares of
  all gradient elements.
* Theorems (StepProps.v): `sgd_step_descends_partial`.
* Note: Over the reals, for the programs of C85; missing are the programs C85 does not
  cover (C22, C51 and C08 have why).

### C87 Data-parallel training equals training in one process with the mean gradient (partial)

* How: DdpModel.v puts the reducer (ReducerModel.v) and the optimizers (OptimModel.v)
  together: one iteration of all ranks is zeroGrad, delivery of local gradients in the
  rank's own order, the bucket collectives, the copies back into the gradient tensors in
  place, step(). The elements of all parameters are numbered through because
  OptimModel.v works element by element. Proved by induction on iterations: restricted
  to one element, a rank's history is that of the single process with each mean gradient
  delivered in two parts.
* Theorems (DdpProps.v): `ddp_training_partial`, `elements_numbered`,
  `ddp_training_refuted`.
* Note: Over the reals; every rank must get a gradient for every parameter and the
  buckets must become full in the same order on all ranks. Refuted: a parameter without
  a gradient switches averaging off without an error and the replicas drift apart;
  different bucket orders and parameters without elements are refuted for C41.

### C88 Arithmetic on half and bfloat16 is correctly rounded (proved)

* How: Arith16Model.v: every operator widens (FloatModel.v), computes with Flocq's
  binary32 and narrows. With C27 and C28 the claim becomes: rounding to 24 bits and then
  to 11 or 8 equals rounding once. For +, -, /, sqrt and half products this is Flocq's
  Double_rounding; a bfloat16 product is exact in float32 unless it is below 2^-134, and
  then both ways give 0 (Arith16Proofs3.tiny). Arith16Proofs.narrowed carries this over
  to signs and overflow; infinities, zeros and NaN by cases (Arith16Proofs2.shape).
* Theorems (Arith16Props.v): `half_arithmetic_correctly_rounded`,
  `bf16_arithmetic_correctly_rounded`, `half_nearest`, `bf16_nearest`, `half_unary`,
  `bf16_unary`, `half_tensors`, `bf16_tensors`.
* Note: Against Flocq's IEEE operations of the formats (11, 16) and (8, 128), for
  every choice of NaN payloads. Host code path; tensors without zero sizes (the
  zero-size cases are C06 and C07).

### C89 Integer operands, comparisons and limits of the 16-bit types follow their numbers (partial)

* How: Same model: integers through Flocq's binary_normalize (exact up to 2^24, both
  roundings overflow a half beyond), comparison through Flocq's Bcompare, the limits
  through the extreme values of a format and the successor of 1.
* Theorems (Arith16Props.v): `half_of_int_correctly_rounded`, `bf16_of_int_partial`,
  `bf16_of_int_refuted`, `half_order`, `bf16_order`, `half_eq_partial`,
  `bf16_eq_partial`, `half_eq_refuted`, `bf16_eq_refuted`, `half_limits_correct`,
  `bf16_limits_partial`, `bf16_snan_refuted`.
* Note: Refuted: 16842753 as a bfloat16 is rounded twice and ends on the farther
  neighbour; == on two variables compares bits, so 0 == -0 is false and NaN == NaN true;
  the signalling NaN of bfloat16 is infinity. Proved: integers for half without bound,
  for bfloat16 up to 2^24; the order; equality of other numbers; all other limits.

### C90 Collectives that run beside the computation give the results of running one by one (partial)

* How: StreamModel.v: every rank has a host script, a compute stream and a
  communication stream (lists of kernels, collectives, event records and event waits); a
  schedule says who moves next, a collective happens when it is first on all ranks. The
  specification is the run one by one (StreamSpec.oneByOne). Invariant
  (StreamProofs3.tracks): the items still in the streams and the rest of the script are
  a subsequence of the script in which everything taken out of order commutes with what
  it overtook (StreamProofs.ordered, StreamProofs4.commute); each step keeps oneByOne of
  what is left. Progress by looking at the oldest item, termination by counting.
* Theorems (StreamProps.v): `overlap_same_partial`, `overlap_never_stuck`,
  `overlap_runs_end`, `async_all_reduce`, `reduce_scatter_refuted`,
  `reduce_scatter_not_waiting`, `no_wait_refuted`.
* Note: Proved for every script that waits before it touches the buffers handed to
  NCCL. Missing for reduceScatter: the buffer it sends is a temporary which is freed on
  return, so a script that obeys the rule for its own tensors can still overwrite it
  (refuted by a schedule).

### C91 Overlapping the gradient reduction with the backward pass does not change training (proved)

* How: StreamDdpModel.v: the calls the reducer puts into a script, from its hooks.
  StreamDdpProofs.check runs over a script with the set of works not waited for yet;
  invariant over the hooks of an iteration: what is outstanding is what the reducer
  remembers, for other buckets than the one being filled. Then C90.
* Theorems (StreamProps.v): `ddp_overlap`, `ddp_script`,
  `ddp_incomplete_pass_refuted`.
* Note: A pass that leaves a bucket incomplete is outside the statement; the last
  theorem shows that the next pass then writes a buffer that is still being reduced.

### C92 A barrier lets no rank pass before all ranks have reached it (partial)

* How: Same model. StreamProofs6.counted: the event of work w has been reached only
  after more than w collectives, and a read ends only when the compute stream is empty.
* Theorems (StreamProps.v): `waited_and_read_partial`, `barrier_refuted`.
* Note: Refuted: barrier() only makes the compute stream wait, the rank itself goes
  on. Proved: after a wait and a later read of any tensor, every rank has started that
  collective. The first collective of a process also waits for all ranks while the
  communicator is made; that is not modelled.

### C93 A work handle tells the truth about its operation (partial)

* How: WorkModel.v: the handle is the flag, the message and the time of creation; the
  event is reached at some time or never; each turn of the wait loop looks at the event
  and at the clock at given times. Induction on the turns.
* Theorems (WorkProps.v): `work_completed_partial`, `work_wait_timeout_partial`,
  `work_wait_returns`, `work_wait_refuted`, `work_timed_out_refuted`,
  `work_timeout_from_start_refuted`.
* Note: Proved: isCompleted before any wait, the result of the first wait with a
  timeout, and that it returns. Refuted: wait() without a timeout marks the work as
  completed at once; after a timeout the work counts as completed and the next wait
  succeeds and clears the error; the timeout counts from the start of the operation, not
  from the call.

### C94 Setting up a process group makes the group that was asked for, or returns false and changes nothing (partial)

* How: PgModel.v: strings as Coq strings, the regular expressions as a split at the
  first colon and a test for digits, std::stoi with its exceptions; a group is the
  arguments its parts are made with. PgSpec.v: how a number is written, what a host name
  is, the four forms of strings. Induction on strings.
* Theorems (PgProps.v): `pg_tcp_port_partial`, `pg_tcp_default_port`, `pg_file`,
  `pg_env_partial`, `pg_rejects`, `pg_second_init_fails`, `pg_destroy_init`,
  `pg_barrier_device`, `pg_port_wraps_refuted`, `pg_throws_refuted`,
  `pg_rank_outside_refuted`, `pg_timeout_ignored_refuted`, `pg_failed_init_refuted`,
  `pg_barrier_refuted`.
* Note: Proved for ports below 65536, numeric environment variables and the NCCL
  backend. Refuted: larger ports wrap or throw, non-numeric variables throw, ranks
  outside the group are accepted, the timeout and waitWorkers have no effect, an
  unsupported backend leaves a group behind, barrier() without devices always fails its
  assertion.

### C95 All ranks of a group get the same communicators (partial)

* How: CommModel.v: each rank asks for devices in turn; one step per store access and
  per passed rendezvous. Invariant: key k holds rank 0's k-th id, each rank has a prefix
  of them. Progress: a rank with the fewest communicators, or rank 0, can move; a
  measure bounds the schedules.
* Theorems (CommProps.v): `comm_ids_agree_partial`, `comm_all_finish_partial`,
  `comm_file_store_refuted`, `comm_file_store_reused_refuted`.
* Note: Proved with the TCP store. Refuted with the file store: an id can be read
  before it is written, which ends in a deadlock on the backend's own mutex; and ids of
  an earlier group are still in the directory.

### C96 Floating-point sums, dot products, matrix products, running sums and means have known error bounds (proved)

* How: AccModel.v: the loops of the reductions and products over any type with
  addition and multiplication, used with the words of float, Half and BFloat16. Each
  element is a fold in a fixed order (AccProofs); one operation is one rounding (Flocq,
  and C88's double rounding results); induction on the terms gives the bounds.
* Theorems (AccProps.v): `C96_sum`, `C96_sum_dims`, `C96_dot`, `C96_matmul`,
  `C96_cumsum`, `C96_mean`, `C96_mean_dims`, `C96_whole_sum`, `C96_whole_sum_dims`,
  `C96_growth`, `C96_ones_stop_refuted`, `C96_mean_of_ones_refuted`.
* Note: Products are of two matrices, without BLAS and without fused multiply-add. The
  last two theorems show that the growth with n is real: adding ones stops at
  2^precision (256 for BFloat16), so the mean of 512 BFloat16 ones is 0.5.

### C97 On a CUDA device multinomial draws valid categories, whatever the schedule of the threads (partial)

* How: CudaMultiModel.v: the three kernels and the host function, with Thrust's scan
  and the random numbers as parameters. GpuOwn.v: a part of a global buffer that only
  one block uses is as good as shared memory. Each kernel equals a function of the
  weights under every schedule; the functions are then studied with Flocq as in C47.
* Theorems (CudaMultiProps.v): `multinomial_cuda_in_range`,
  `multinomial_cuda_draws_partial`, `multinomial_cuda_usable_partial`, `sum_from_left`,
  `counts_any_order`, `from_left_is_usable`, `left_any_order`, `neighbours_any_order`,
  `multinomial_cuda_rejects`, `multinomial_cuda_order_refuted`,
  `multinomial_cuda_tiny_refuted`, `multinomial_cuda_nothing_left_refuted`,
  `multinomial_cuda_no_category_refuted`, `multinomial_cuda_empty_refuted`.
* Note: Safety and range hold for all weights. Draws by weight need weights that are
  zero or from 2^-116 to 2^103, something left to draw, and, with replacement, cumulated
  sums as from the left: true for the sum from the left, and for whole numbers up to
  2^24 in every order of additions. In another order a category of weight zero can be
  drawn; nothing left to draw is not rejected but gives 0; no categories leave the
  result unset; no rows or no draws make a launch of no blocks.

### C98 Dropping tensors never breaks or changes a backward pass, and nothing leaks (partial)

* How: LifeModel.v: AutogradMeta and Function objects with their shared and weak
  pointers; each statement is followed by the destruction of everything unreferenced, to
  the fixpoint. LifeSpec.v tells the computation as written, without destruction.
  Invariant (LifeProofs): objects agree with the story, saved inputs keep alive what
  weak pointers point to, owners are unique; the backward order is C01's
  buildBackwardGraph, which sees the story's graph where it is alive. Sweeping reaches a
  fixpoint by counting; references go from later to earlier operations, so what is
  referenced is needed by a variable.
* Theorems (LifeProps.v): `backward_after_drops_partial`, `backward_refuses_partial`,
  `statements_succeed_partial`, `needed_exists`, `nothing_leaks_partial`,
  `all_freed_partial`, `sum_of_scalar_refuted`, `sum_breaks_argument_refuted`,
  `sum_of_scalar_leaks_refuted`, `set_again_refuted`, `set_after_copy_refuted`,
  `off_and_on_refuted`, `freeze_middle_refuted`.
* Note: Proved for all programs that do not sum a scalar that requires gradients and
  do not switch requiresGrad of existing tensors, with one result per operation with a
  derivative; false for the others (refuted theorems). That needed objects exist is
  proved for all programs. The 3 clauses are backward_after_drops, backward_refuses and
  nothing_leaks.

### C99 Losses of CUDA tensors are the losses of the CPU, under every schedule of the GPU (partial)

* How: CudaLossModel.v: the host functions, built from the launches of C70
  (element-wise), C71 (fills), C72 (index tensors), C73 (sum) and C74 (mean); kernels on
  elements run in a memory that also holds indices. CudaLossProofs.v: a bisimulation
  shows that such a kernel behaves there as on a memory of elements alone; the theorems
  of the kernels are then composed launch by launch. The gradients are C51's.
* Theorems (CudaLossProps.v): `mse_cuda_value_partial`, `mse_cuda_rejects_partial`,
  `mse_cuda_gradient_partial`, `mse_cuda_gradient_refuted`, `nll_cuda_value_partial`,
  `nll_cuda_rejects`, `nll_cuda_gradient_partial`, `nll_cuda_as_host_partial`,
  `nll_cuda_empty_refuted`.
* Note: Over the reals, for non-empty tensors of at most 2^32 elements (2^18 terms for
  mean and sum: larger ones are C73's refutation) and buffers that do not overlap. The
  gradient of mseLoss is false for targets larger than the input; that of nllLoss is
  right only for the incoming gradient 1, and is treated for matrices.

### C100 A TCP store's server keeps clients apart, starts when its workers are there, and can be destroyed (partial)

* How: TcpLifeModel.v: the constructor as a function of what the system calls answer;
  the counter and condition variable of the registrations as a step function; descriptor
  table, accept loop, monitor, client threads and destructor as a step function over
  labels, with POSIX's lowest free descriptor. Invariants by induction on the run: a
  sleeping waiter has a notification under way for each surplus worker; a descriptor is
  a connection exactly while the loop or its one thread holds it.
* Theorems (TcpLifeProps.v): `construct_succeeds`, `construct_usable_partial`,
  `construct_no_listen_refuted`, `failed_call_silent_refuted`, `workers_registered`,
  `workers_wake`, `workers_not_asleep`, `workers_present_refuted`,
  `connections_own_partial`, `connections_served_partial`, `connections_kept_partial`,
  `reset_serves_other_refuted`, `reset_closes_other_refuted`,
  `reset_closes_file_refuted`, `memory_there_partial`, `destroy_refuted`.
* Note: The start-up clause is proved (for workers registered, not for workers still
  connected). The clauses on connections are proved for all interleavings without a
  reset connection, and false with one; the store cannot be destroyed safely at any
  time; failures are not reported.

### C101 Converting a tensor to another element type converts its numbers (partial)

* How: CastModel.v: static_cast between the six element types on bit patterns, with
  Flocq's binary32 and the half and bfloat16 conversions of C27 and C28; truncation by
  Btrunc, undefined outside the range; to, toList, item, fill_. Specification in terms
  of the numbers of CmpSpec. Cases on the pairs, the double rounding lemmas of C88,
  monotony of rounding.
* Theorems (CastProps.v): `to_converts_partial`, `to_keeps`, `to_round_trip`,
  `wider_types`, `to_order_partial`, `to_sign`, `to_storage`, `toList_item_partial`,
  `fill_converts_partial`, `to_out_of_range_refuted`, `to_wraps_refuted`,
  `to_bf16_refuted`, `int_float_int_refuted`, `to_bool_refuted`, `to_bool_partial`,
  `to_gradient_refuted`.
* Note: On the CPU. Proved for every pair of types: numbers the new type has, round
  trips, rounding and truncation, order and sign. Refuted: floating-point numbers out of
  range are undefined behaviour, integers out of range wrap, integers above 2^24 are
  rounded twice on the way to bfloat16, Bool keeps bytes (0.5 is false, 2 stays 2), and
  the history is lost. Tensors below 2^31 elements.

### C102 Softmax of floating-point numbers is a distribution up to rounding (partial)

* How: FsoftModel.v: the line kernel on words of the three types with Flocq's
  operations: subtraction, comparison, conversion to float and back around std::exp and
  std::log (parameters), the running sum, 1.0 / sum in double. FsoftSpec.v: what a word
  stands for (a number, an infinity or NaN), what is assumed of exp and log, the exact
  softmax. One operation is one rounding (Flocq, C88 and C96); induction along the line
  for the maximum, the sum and its bounds; C43's line traversal lifts it to tensors.
* Theorems (FsoftProps.v): `C102_softmax_values`, `C102_softmax_order`,
  `C102_softmax_total`, `C102_softmax_close`, `C102_log_softmax_partial`,
  `C102_log_softmax_close`, `C102_rejects`, `C102_long_lines_refuted`,
  `C102_log_finite_refuted`.
* Note: On the CPU, std::exp and std::log being any functions with the stated
  properties (the correctly rounded ones have them). Proved with error bounds, for
  softmax and log-softmax, that grow with the length and the spread of the line.
  Refuted: the total of long lines is about 1 (the running sum of exponentials stops
  growing at 2^8 in BFloat16, 2^11 in Half, 2^24 in float), and log-softmax of numbers
  is a number (differences overflow).

### C103 What is printed tells what the tensor is (partial)

* How: PrintModel.v: texts as lists of characters; std::to_string of numbers as %f on
  the integer significand, printArray with its commas, the layout of printOptions and
  printTensorImpl, the 1024-byte buffer and the lock of Logger::log, threads moving one
  step (lock, fill, write) at a time. PrintSpec.v: decimal text, rounding to six
  decimals in R, the layout, lines of a history. The text is cut at characters that its
  pieces do not contain; the threads by an invariant: the owner of the lock is the only
  thread inside, and the buffer holds its text.
* Theorems (PrintProps.v): `C103_layout`, `C103_tells_partial`, `C103_threads`,
  `C103_no_deadlock`, `C103_ends`, `C103_full_refuted`, `C103_small_numbers_refuted`.
* Note: Proved for texts of at most 1022 characters; floating-point elements are told
  up to a millionth. Refuted: printing in full tells all the elements (the log cuts
  every message to 1022 characters), and different floating-point numbers are shown
  differently (1e-7 is shown as 0.000000).

### C104 Strings in the store come back as they were set (proved)

* How: StrStoreModel.v: the conversions of Store::set and Store::getString on lists of
  signed bytes, over the operations of StoreModel. The round trip by arithmetic modulo
  256; the concurrent statement from the linearizability of C35: a point for every
  answer, and the value at that point was set at an earlier one.
* Theorems (StrStoreProps.v): `C104_round_trip`, `C104_strings`.
* Note: For signed char; the operations of the TCP store are those of C35's model.

## Findings

Behaviour of the code that contradicts a property, found while modelling.  Each
item of the first list is proved about the model by the theorem named.

Memory and shapes
* Switching the allocator's cache off and on again loses track of blocks
  (`alloc_toggle_refuted`); negative sizes are accepted (`alloc_negative_size_refuted`).
* reshape accepts negative sizes other than one -1 (`reshape_negative_refuted`).
* flatten with dimensions out of range reads out of bounds
  (`flatten_out_of_range_refuted`); every negative last dimension is taken as the
  last one (`flatten_negative_end_refuted`); unflatten accepts two -1 when the size
  is zero (`unflatten_two_inferred_refuted`).
* A view's bounds check mixes elements and bytes (`view_bounds_refuted`) and accepts
  negative offsets (`view_negative_offset_refuted`).
* Broadcasting a dimension of size 0 with one of size 1 or more gives the wrong
  shape (`broadcast_zero_size_refuted`); element-wise operations on empty tensors
  read out of bounds (`elementwise_empty_refuted`).
* SmallVector: push, insert and resize with a reference into the same vector
  (`svec_push_alias_refuted`, `svec_insert_alias_refuted`, `svec_resize_alias_refuted`),
  inline capacity 0 (`svec_no_inline_refuted`).

Indexing and data movement
* split accepts negative section sizes (`split_negative_sections_refuted`) and reads a
  size before checking the dimension (`split_dim_unchecked_refuted`); chunk of an
  empty dimension divides by zero (`chunk_empty_refuted`).
* index on a view ignores its offset (`index_of_view_refuted`) and accepts indices out
  of range (`index_out_of_range_refuted`).
* expand does not check compatibility (`expand_incompatible_refuted`); index_select does
  not check its indices (`index_select_unchecked_refuted`).
* Advanced indexing does not check the range, the sizes or the number of the index
  tensors (`index_tensors_range_refuted`, `index_tensors_sizes_refuted`,
  `index_tensors_count_refuted`).
* Some in-place writes do not copy a shared storage first (`copy_isolated_refuted`).
* Operations on mixed element types reinterpret bytes (`C64_equal_size_bits_refuted`), and
  read out of bounds when the second operand is narrower
  (`C64_narrower_operand_refuted`, `C64_narrower_compare_refuted`).
* fillOffset is unchecked (`fill_offset_outside_refuted`); masked fill into an output of
  another shape (`masked_fill_out_smaller_refuted`, `masked_fill_out_larger_refuted`).

Numerical operations
* max of minus infinities and min of infinities give the scan's start value
  (`max_of_minus_infinity_refuted`, `min_dim_of_infinity_refuted`).
* varMean over dimensions always keeps them in the mean (`var_mean_shapes_refuted`).
* matmul with unequal batch ranks is wrong or reads out of bounds
  (`matmul_batch_rank_refuted`, `matmul_batch_rank_reads_outside_refuted`); vector times
  batch (`matmul_vector_batch_refuted`); an empty batch divides by zero
  (`matmul_empty_batch_refuted`).
* im2col accepts a kernel too large by less than the stride
  (`im2col_kernel_too_large_refuted`); conv2d's and max pooling's results are laid out
  channels-last under a channels-first shape (`conv2d_nchw_refuted`,
  `max_pool_nchw_refuted`).
* sort with NaN may come out unsorted (`sort_nan_refuted`).
* layer norm and rms norm do not check the weight's size (`norm_weight_size_refuted`) nor an
  empty last dimension (`norm_empty_refuted`).
* RoPE reads outside its table for positions beyond the context (`rope_context_refuted`).
* multinomial: tiny totals and overflowing totals give an index outside the
  categories (`multinomial_tiny_refuted`, `multinomial_overflow_refuted`); negative weights
  are accepted (`multinomial_negative_refuted`); no categories
  (`multinomial_empty_refuted`).
* Integer arange loses its last value when the step does not divide the range
  (`arange_int_refuted`), a zero or wrong-way step is undefined
  (`arange_bad_step_refuted`); integer linspace does not reach its end
  (`linspace_int_refuted`).
* maximum and minimum drop a NaN in the second operand (`maximum_nan_refuted`);
  sign(0) is -1 (`sign_zero_refuted`); relu(NaN) is 0 in one implementation and NaN in
  the other (`relu_nan_refuted`).
* Every random fill after manualSeed repeats the same stream
  (`random_fills_repeat_refuted`, `random_fill_twice_refuted`); dropout of an operation
  treats p as the probability to keep (`dropout_op_refuted`), so attention drops with
  probability 1-p (`attention_dropout_refuted`).

Gradients
* The gradient of a broadcast has the wrong rank when only leading dimensions of
  size 1 differ (`broadcast_gradient_rank_refuted`); permute's gradient is a reshape
  (`permute_gradient_refuted`).
* Gradient tensors are shared and then added to in place: d = (a+b)+a
  (`leaf_gradients_refuted`), zero_grad with shared gradients
  (`zero_grad_shared_refuted`, `zero_grad_intermediate_refuted`), backward twice
  (`backward_twice_refuted`), operands of sums used again (`sums_used_again_refuted`).
* add and sub ignore alpha in their gradient (`add_alpha_refuted`); mse's gradient
  takes the target's shape (`mse_gradient_refuted`); nll's ignores the incoming
  gradient (`nll_gradient_refuted`, `nll_gradient_rank3_refuted`) and its targets are
  unchecked (`nll_targets_refuted`); linear's gradients have the wrong shape unless
  the input is a matrix (`linear_batched_gradients_refuted`,
  `linear_vector_gradients_refuted`).
* In-place operators lose the graph (`inplace_operator_gradient_refuted`,
  `inplace_operand_gradient_refuted`, `inplace_requires_grad_refuted`); overwriting a saved
  operand changes gradients unnoticed (`overwritten_operand_refuted`); reductions of
  scalars return their argument itself (`reduction_of_scalar_refuted`,
  `fill_touches_one_tensor_refuted`); reshapes of tensors that require gradients fail in
  no-grad mode (`no_grad_reshape_refuted`).
* Hook identifiers shift after a removal (`hooks_shift_refuted`); hooks on results
  never run (`hooks_of_results_refuted`).

Training
* SGD's momentum buffer is the gradient tensor itself until the second step
  (`sgd_momentum_refuted`); centred RMSprop takes no square root
  (`rmsprop_centered_refuted`); AdamW decays parameters without a gradient
  (`adamw_without_gradient_refuted`).
* StepLR: step size 0 (`steplr_zero_step_size_refuted`), repeated step(epoch) compounds
  (`steplr_step_to_epoch_refuted`).
* DataLoader loses a sample at 2^24+1 (`loader_large_refuted`), batch size 0
  (`loader_zero_batch_refuted`); DistributedSampler loses a sample at 2^25+1
  (`sampler_large_refuted`) and reads out of bounds when more padding than data is
  needed (`sampler_padding_refuted`).
* Module::zeroGrad fails when a parameter is frozen (`zero_grad_frozen_refuted`); names of
  parameters clash (`names_clash_refuted`).
* Files cut inside their headers are read out of bounds (`load_cut_headers_refuted`),
  offsets wrap (`load_offset_wraps_refuted`), the element type is cut to a byte
  (`load_dtype_truncated_refuted`), a failed load leaves some parameters changed
  (`load_not_atomic_refuted`).

Distributed
* TCPStore: add on text or on overflow ends the server (`store_add_text_refuted`,
  `store_add_overflow_refuted`); a waiter misses a key that is set, deleted and set
  (`store_lost_wakeup_refuted`, `store_lost_wakeup_get_refuted`); the accept loop locks
  itself out at the 130th connection (`accept_refuted`).
* FileStore: `file_lost_increment_refuted`, `file_mixed_add_refuted`, `file_mixed_set_refuted`,
  `file_empty_get_refuted`, `file_ghost_key_refuted`, `file_delete_refuted`.
* Reducer: buckets that complete in different orders on two ranks are added to each
  other (`ddp_average_refuted`); parameters of size 0 (`ddp_zero_size_refuted`,
  `ddp_zero_size_last_refuted`).
* allGather never writes the caller's tensors (`all_gather_outputs_refuted`) and writes
  past the end with too few of them (`all_gather_short_refuted`).

CUDA
* An operation on an empty CUDA tensor launches zero blocks, which the runtime refuses,
  and the process aborts (`cuda_unary_empty_refuted`; im2col and col2im with no elements:
  `cuda_windows_empty_refuted`).
* Element indices are 32-bit: elements from 2^32 on are never written
  (`cuda_unary_large_refuted`, `cuda_fill_large_refuted`); filling an empty CUDA tensor
  aborts (`cuda_fill_empty_refuted`).
* manual_seed does not reset the CUDA generator's sequence counter: the same seed set
  again in one process gives other numbers (`cuda_manual_seed_refuted`).
* The masked fill into a given output does not check the output's shape and writes past
  a shorter one (`cuda_fill_masked_out_refuted`).
* permute on a CUDA tensor passes negative dimensions, which the CPU accepts, to the
  kernel, which reads outside its array of strides (`cuda_permute_negative_refuted`).
* gather and scatter on CUDA tensors do not check index values: one out of range is an
  access outside the buffer, where the CPU throws (`cuda_gather_unchecked_refuted`).
* scatter and index_put on CUDA tensors with a position named twice leave any of the
  values, by the order of the threads (`cuda_scatter_any_refuted`,
  `cuda_index_tensors_put_any_refuted`).
* Grid limits: a matrix of more than 2097120 rows is not transposed, and a batch of more
  than 65535 matrices is not cut by tril/triu: the launch is refused
  (`cuda_transpose_tall_refuted`, `cuda_tril_batch_refuted`).
* The rounds of a CUDA reduction after the first read and write the same buffer with no
  order between blocks: the sum of more than 512 * 512 elements, and the sums of two rows
  of more than 512 elements along the last dimension, are wrong under some schedule
  (`cuda_sum_all_large_refuted`, `cuda_sum_rows_refuted`).
* The CUDA sum over two or more dimensions launches one block per element of the operand
  and stores past the end of the result (`cuda_sum_dims_refuted`).
* The CUDA sum of an empty tensor is refused by the device (`cuda_sum_empty_refuted`).
* Means and variances of a CUDA tensor over two or more dimensions start with that sum, and
  crash or corrupt memory with it (`cuda_mean_dims_refuted`, `cuda_var_dims_refuted`).
* argmax, argmin and the indices of max and min over a dimension of a CUDA tensor are not the
  first position of the extreme, as on the CPU: two equal elements give index 1
  (`cuda_argmax_tie_refuted`, `cuda_max_dim_tie_refuted`).
* argmax of a CUDA tensor with no element above numeric_limits::lowest() is -1
  (`cuda_argmax_lowest_refuted`); the maximum of elements that are all minus infinity is
  lowest(), a finite number (`cuda_max_below_refuted`).
* A CUDA maximum of more than 512 * 512 elements can be lost to the race between the rounds
  (`cuda_max_all_large_refuted`).
* softmax of a CUDA tensor of more than 65535 elements per index after the dimension (or before
  it, for lines above 1024 elements), or with no lines, is refused by the device and the result
  is uninitialised memory (`cuda_softmax_wide_refuted`).
* nextPow2 of a number above 2^31 is 0 (`cuda_next_pow2_refuted`); block sizes are clamped after it.
* layerNorm of a CUDA tensor with rows of 33 to 1024 elements has a race: cudaBlockReduce ends by
  reading shared[0] without a barrier after it, and the second reduction, of the squares, stores
  to the same array.  A warp that is late reads a partial sum of squares as the row's sum
  (`cuda_layer_norm_race_refuted`).  Softmax is spared: its two reductions are of different types
  of operation and so have different shared arrays.
* layerNorm and rmsNorm of a CUDA tensor with no rows launch nothing and report nothing
  (`cuda_norm_rows_refuted`).
* ropeApply of a CUDA tensor reads the table at offset + t without comparing it with the
  table's length (`cuda_rope_position_refuted`), as on the CPU.
* ropeInit with no positions or heads of size 0, and ropeApply of an empty tensor or of more than
  65535 * 512 positions, are refused by the device while the CPU handles them
  (`cuda_rope_empty_refuted`).
* matmul of CUDA tensors with an inner size of 0 or no columns aborts, where the CPU
  answers (`cuda_matmul_empty_refuted`); sizes are cut to 32 bits: of an inner size
  2^32 + 1 only the first product is taken (`cuda_matmul_large_refuted`); batches of
  different rank are matched wrongly (`cuda_matmul_batch_rank_refuted`).
* siluMul of a scalar reads outside its shape, of lines of size 0 divides by zero on the
  CPU and aborts on the GPU (`silu_mul_empty_refuted`).

- C82: DatasetMNIST never looks at the state of its stream. An image file cut short
  after the first image loads without a word, its missing images filled with copies
  of the last one read, and each copy keeps the label of the image it replaces
  (`mnist_truncated_refuted`). A file that ends in its header is worse: with only the
  magic number, 2051 is taken for the count, the height and the width, and the pixels
  come from uninitialized memory (`mnist_header_refuted`). Images of no pixels take
  the address of element 0 of an empty vector, and items are not bounds-checked
  (`mnist_bounds_refuted`).

- C83: after manualSeed every uniform fill on the CPU starts from the same copy of the
  engine, so initParameters gives equal layers equal weights, makes each bias repeat the
  first elements of its own weight and makes the weights of any two layers multiples of
  each other (`init_repeats_refuted`). A layer with no inputs, which the code tests for
  when it fills the bias, has already asked for a uniform distribution with infinite
  bounds (`init_no_inputs_refuted`).

* **C87, a parameter without a gradient lets the replicas drift apart.** If in some iteration one parameter takes no part in the loss, its bucket never becomes full, `checkAllBucketsReady` returns early and no gradient is averaged. Every rank steps with its own gradients; nothing is reported (`ddp_training_refuted`).
* **C89, corners of the 16-bit types.** A large integer operand of a bfloat16 operator is
  rounded to float32 first and then to bfloat16: 2^24 + 2^16 + 1 becomes 2^24 although
  2^24 + 2^17 is nearer (`bf16_of_int_refuted`). `==` and `!=` on two variables compare the
  words: 0 == -0 is false while 0 >= -0 and 0 <= -0 hold, NaN == NaN is true
  (`half_eq_refuted`, `bf16_eq_refuted`); constants and temporaries do not bind to these
  operators and are compared as floats, so the answer depends on constness.
  `numeric_limits<BFloat16>::signaling_NaN()` is the word of infinity (`bf16_snan_refuted`).

- C90: reduceScatter stacks its inputs into a temporary tensor and returns before NCCL
  has read it. The work keeps only the output, so the temporary goes back to the
  allocator at once and the next tensor may be written there while it is being sent
  (reduce_scatter_refuted).
- C91: prepareForBackward forgets the works of the pass before. If that pass left a
  bucket incomplete, reductions are still running on other buckets' buffers when the
  next pass copies gradients into them (ddp_incomplete_pass_refuted).
- C92: barrier() does not hold the calling rank back. It is started as an ALL_REDUCE, so
  isBarrierOp_ is false and wait() only makes the compute stream wait (barrier_refuted).
- C93: wait() without a timeout marks the work as completed at once
  (work_wait_refuted); after a timeout the work counts as completed, and the next
  wait() returns true and clears the error (work_timed_out_refuted); the timeout counts
  from the start of the operation (work_timeout_from_start_refuted).
- C94: initProcessGroup takes ports modulo 65536 (pg_port_wraps_refuted), throws on a
  port that does not fit an int or a variable that is not a number (pg_throws_refuted),
  accepts ranks outside the group (pg_rank_outside_refuted), sets its timeout before
  there is a backend and never reads waitWorkers (pg_timeout_ignored_refuted). With an
  unsupported backend it returns false but keeps the new group, so that every later
  call fails (pg_failed_init_refuted). Nothing binds a group to a device, so barrier()
  without a list of devices always fails its assertion (pg_barrier_refuted).
- C95: with a file store a rank can find the file of an id before the id is in it; it
  then calls setError while it holds the mutex setError locks
  (comm_file_store_refuted). The files of an earlier group stay, and a new group in the
  same directory takes the old ids (comm_file_store_reused_refuted).

- **C96** Sums keep their accumulator in the element type. In BFloat16 a sum of
  ones stops at 256, in Half at 2048 (C96_ones_stop_refuted), so the mean of 512
  BFloat16 ones is 0.5 (C96_mean_of_ones_refuted); the same holds for matrix
  products with longer inner dimensions.
- **C97** multinomial on CUDA: when the order of the additions of the cumulated sum is another
  than from the left, a category of weight zero can be drawn
  (`multinomial_cuda_order_refuted`), and likewise when the total is so small that its
  product with the random number rounds to zero (`multinomial_cuda_tiny_refuted`). With
  nothing left to draw the host version fails; this one returns category 0, also twice
  (`multinomial_cuda_nothing_left_refuted`). Without categories the result is left
  uninitialised (`multinomial_cuda_no_category_refuted`).
- **C98** `h.sum()` of a scalar that requires gradients returns h itself, and making it the
  result of a new operation overwrites h's own: backward through it fails
  (`sum_of_scalar_refuted`), backward of h fails from then on
  (`sum_breaks_argument_refuted`), and h's objects refer to each other and are never
  freed (`sum_of_scalar_leaks_refuted`). Calling `setRequiresGrad(true)` again on a tensor
  already used breaks the backward of what was computed from it (`set_again_refuted`);
  after `b = a; a.setRequiresGrad(true)` b cannot be used (`set_after_copy_refuted`);
  freezing and unfreezing a tensor between forward and backward loses its gradient
  (`off_and_on_refuted`); freezing an intermediate result stops the program
  (`freeze_middle_refuted`).
- **C99** On the GPU too, the gradient of nllLoss ignores the incoming gradient and that of mseLoss has the target's shape when the target is larger; nllLoss of an empty batch launches an empty grid and aborts.
- **C100** TCPStore: when a client's connection is reset, the monitor closes its descriptor and the client's thread closes it again (`reset_closes_other_refuted`): in between it may have become another client's connection or a file, which is then closed, or whose requests the old thread takes. The destructor detaches all threads and frees the object they use (`destroy_refuted`); if the server could not listen, every call and the destructor crash (`construct_no_listen_refuted`). Failed calls return default values (`failed_call_silent_refuted`). Workers that crashed still count as registered (`workers_present_refuted`).
- **C101** Tensor::to: a float that does not fit the integer type is undefined behaviour (`to_out_of_range_refuted`); int32 2147483647 to float32 and back already is (`int_float_int_refuted`). Bool is uint8_t: 0.5 becomes false, 256 false, 2 stays 2 (`to_bool_refuted`). The result requires gradients but is a new leaf, so the gradient never reaches the original (`to_gradient_refuted`).
- **C102** (`C102_long_lines_refuted`) softmax adds the exponentials up in the element type (OpNNLayerCpu.h:39-47), and the sum stops growing at 2^8 (BFloat16), 2^11 (Half) or 2^24 (float): a line of 512 equal BFloat16 numbers gives 512 times 1/256, a total of 2.
- **C102** (`C102_log_finite_refuted`) log-softmax of numbers can be minus infinity: [FLT_MAX; -FLT_MAX] overflows in the difference from the maximum (the exact result, -2 FLT_MAX, is not a number of the type).
- **C103** (`C103_full_refuted`) `print(tensor, tag, true)` does not print the tensor in full: the log formats every message into a buffer of 1024 bytes with size argument 1023 (Logger.cpp:31), so 1022 characters are kept and the rest is dropped without notice. Two Int32 tensors of 400 elements that differ in the last print the same.
- **C103** (`C103_small_numbers_refuted`) elements are printed with six decimals whatever their size, so 1e-7 is shown as 0.000000.

Seen while reading, not stated in Coq
* `Tensor::to` with the same type returns the same tensor.
* pow's gradient is NaN at 0^0; relu's gradient at 0 is 1.
* scatter reads its source linearly.
* Several functions have no backward (sqrt, maximum, minimum, transpose, tril, split,
  concat, mean, var, gelu, silu, layer norm, rms norm, embedding, RoPE, attention).
* Serializer::save ignores write errors.
* FileStore::wait without a timeout times out at once; keys with '/' become paths.
* Layers leave their weights uninitialised until initParameters is called.
* The MNIST loader does not check the sizes in a file's header.

## Trusted base

* Coq 8.16.1's kernel, including its virtual machine where a proof uses
  `vm_compute`; `coqchk` re-checks the compiled files without it.
* The reading of the C++: nothing ties a definition of the model to the lines it
  cites except the comment beside it.
* The stand-ins for code outside the repository: the system allocator, the file
  system with record locks, sockets that split messages anywhere, the thread
  scheduler, `std::sort` and `std::partial_sort` (any result the standard allows), the
  random engine (any engine), NCCL, cuBLAS and Thrust (their documentation), the CUDA device (GpuModel.v,
  after the CUDA programming guide), mutexes and condition
  variables.
* Of the installed libraries, Flocq and Coquelicot are used for floating
  point and derivatives and add no axioms beyond the standard library's.
* No axiom is declared in this development.  The axioms below all come from Coq's
  standard library (`ClassicalDedekindReals.sig_forall_dec`,
  `ClassicalDedekindReals.sig_not_dec`, `Classical_Prop.classic`,
  `FunctionalExtensionality.functional_extensionality_dep`).

What `Print Assumptions` lists for each theorem named in `MANIFEST.json`:

**Closed under the global context** (461 theorems)

* AdvProps.v: embedding_rows_partial, index_tensors_count_refuted,
  index_tensors_put_get_partial, index_tensors_put_partial, index_tensors_put_rejects,
  index_tensors_put_untouched, index_tensors_put_value_partial,
  index_tensors_put_written, index_tensors_range_refuted, index_tensors_read_partial,
  index_tensors_sizes_refuted
* AllocProps.v: alloc_account, alloc_best_fit_from_cache, alloc_destroy_checks_live,
  alloc_destroy_returns_everything, alloc_free_unknown_noop,
  alloc_live_disjoint_and_inside, alloc_negative_size_refuted, alloc_never_undefined,
  alloc_release_only_unused, alloc_toggle_refuted, alloc_total_is_sum_held,
  alloc_unused_region_is_one_block, alloc_unused_region_is_reused
* AutogradProps.v: backward_order, backward_runs_each_once, backward_twice_refuted,
  first_unregister_removes_that_hook_partial, hooks_of_results_refuted,
  hooks_run_partial, hooks_shift_refuted, leaf_gradients_new_tensors,
  leaf_gradients_partial, leaf_gradients_refuted, no_grad_nests, paths_are_walks,
  recorded_graphs_are_acyclic, saved_data_in_order, saved_data_overrun_reported,
  second_backward_reported, zero_grad_intermediate_refuted, zero_grad_passes_partial,
  zero_grad_shared_refuted
* BcastProps.v: broadcast_gradient_adjoint, broadcast_gradient_partial,
  broadcast_gradient_rank_refuted, broadcast_operand_shapes, broadcast_shape_partial,
  broadcast_zero_size_refuted, elementwise_broadcasts_partial,
  elementwise_empty_refuted, elementwise_inplace_same_partial,
  elementwise_rejects_partial, unary_applies_everywhere
* CollProps.v: all_gather_outputs_refuted, all_gather_short_refuted,
  broadcast_bad_root, broadcast_delivers
* CommProps.v: comm_all_finish_partial, comm_file_store_refuted,
  comm_file_store_reused_refuted, comm_ids_agree_partial
* CowProps.v: copy_isolated_refuted, shared_storage_is_invisible_partial,
  write_not_seen_elsewhere_partial, write_seen_by_copies
* CudaExtremeProps.v: cuda_argmax_lowest_refuted, cuda_argmax_partial,
  cuda_argmax_scalar, cuda_argmax_tie_refuted, cuda_argmin_partial, cuda_extreme_scalar,
  cuda_max_all_large_refuted, cuda_max_all_partial, cuda_max_below_refuted,
  cuda_max_dim_last, cuda_max_dim_partial, cuda_max_dim_rejects, cuda_max_dim_scalar,
  cuda_max_dim_tie_refuted, cuda_max_empty_refuted, cuda_min_all_partial,
  cuda_min_dim_last, cuda_min_dim_partial
* CudaFillProps.v: cuda_dropout_masked_partial, cuda_dropout_partial,
  cuda_fill_empty_refuted, cuda_fill_large_refuted, cuda_fill_masked_out_refuted,
  cuda_fill_masked_partial, cuda_fill_masked_rejects_partial, cuda_fill_partial,
  cuda_fill_range_partial, cuda_linspace_partial, cuda_linspace_rejects_partial,
  cuda_manual_seed_refuted, cuda_random_fill_partial, cuda_random_fill_stream_partial
* CudaLineProps.v: cuda_next_pow2, cuda_next_pow2_refuted
* CudaMatmulProps.v: cuda_matmul_2d_partial, cuda_matmul_as_cpu_partial,
  cuda_matmul_batch_rank_refuted, cuda_matmul_batched_partial,
  cuda_matmul_column_vector_partial, cuda_matmul_empty_refuted,
  cuda_matmul_large_refuted, cuda_matmul_rejects_batches,
  cuda_matmul_rejects_inner_size, cuda_matmul_rejects_scalar,
  cuda_matmul_row_vector_partial, cuda_matmul_vectors_partial
* CudaMoveProps.v: cuda_expand_partial, cuda_gather_partial,
  cuda_gather_scatter_rejects_partial, cuda_gather_unchecked_refuted,
  cuda_index_select_partial, cuda_index_tensors_put_any_refuted,
  cuda_index_tensors_put_partial, cuda_index_tensors_put_rejects_partial,
  cuda_index_tensors_read_partial, cuda_permute_all_partial,
  cuda_permute_negative_refuted, cuda_permute_partial, cuda_permute_rejects_partial,
  cuda_repeat_count_rejected_partial, cuda_repeat_interleave_partial,
  cuda_scatter_any_refuted, cuda_scatter_one_of_partial, cuda_scatter_partial,
  cuda_select_repeat_reject_partial, cuda_transpose_partial,
  cuda_transpose_rejects_partial, cuda_transpose_tall_refuted, cuda_tril_batch_refuted,
  cuda_tril_partial, cuda_triu_partial
* CudaProps.v: cuda_elementwise_as_cpu_partial, cuda_elementwise_partial,
  cuda_elementwise_rejects_partial, cuda_unary_backward_partial,
  cuda_unary_empty_refuted, cuda_unary_inplace_partial, cuda_unary_large_refuted,
  cuda_unary_partial
* CudaReduceProps.v: cuda_sum_all_large_refuted, cuda_sum_all_partial,
  cuda_sum_dim_partial, cuda_sum_dim_rejects, cuda_sum_dims_partial,
  cuda_sum_dims_rejects, cuda_sum_empty_refuted, cuda_sum_rows_refuted, cuda_sum_scalar
* CudaSampleProps.v: cuda_cumsum, cuda_cumsum_rejects, cuda_sort_as_cpu_partial,
  cuda_sort_nan_refuted, cuda_sort_rejects, cuda_sort_stable_partial, cuda_topk_partial,
  cuda_topk_rejects, stable_contract_met
* CudaWindowProps.v: cuda_col2im_partial, cuda_im2col_partial,
  cuda_windows_empty_refuted, cuda_windows_reject_rank, cuda_windows_single
* CutProps.v: chunk_empty_refuted, chunk_pieces_partial, chunk_rejects,
  chunk_sizes_cover, concat_contains, concat_rejects_mismatch, concat_restores,
  hstack_joins, narrow_is_range, narrow_rejects_outside, split_concat_restores,
  split_dim_unchecked_refuted, split_negative_sections_refuted, split_pieces,
  split_rejects_uneven, split_sections_partial, split_sections_reject,
  stack_adds_dimension, stack_rejects_mismatch, vstack_joins_rows, vstack_makes_rows
* DataProps.v: random_sampler_permutes
* DdpProps.v: elements_numbered
* DispatchProps.v: dispatch_all_types, dispatch_bad_list, dispatch_exact,
  dispatch_key, dispatch_no_collision
* DropProps.v: dropout_every_mask
* FileProps.v: file_alone_partial, file_delete_refuted, file_empty_get_refuted,
  file_get_absent, file_ghost_key_refuted, file_lost_increment_refuted,
  file_mixed_add_refuted, file_mixed_set_refuted, file_set_get_linearizable_partial
* FillProps.v: arange_bad_step_refuted, arange_count, arange_int_partial,
  arange_int_refuted, arange_int_wrong_way_partial, linspace_int_partial,
  linspace_int_refuted
* IndexProps.v: expand_incompatible_refuted, expand_repeats_partial, gather_reads,
  gather_scatter_reject, index_of_view_refuted, index_out_of_range_refuted,
  index_put_replaces, index_select_picks, index_select_unchecked_refuted,
  index_subtensor_partial, repeat_interleave_repeats, scatter_writes
* InitProps.v: fans_of_weight
* LifeProps.v: all_freed_partial, backward_after_drops_partial,
  backward_refuses_partial, freeze_middle_refuted, needed_exists, nothing_leaks_partial,
  off_and_on_refuted, set_after_copy_refuted, set_again_refuted,
  statements_succeed_partial, sum_breaks_argument_refuted, sum_of_scalar_leaks_refuted,
  sum_of_scalar_refuted
* LinalgProps.v: col2im_adjoint, col2im_collects, conv2d_backward_adjoint,
  conv2d_channels_last, conv2d_nchw_partial, conv2d_nchw_refuted, conv2d_rejects,
  dot_is_inner_product, im2col_kernel_too_large_refuted, im2col_rejects_rank,
  im2col_single_image, im2col_windows, matmul_2d,
  matmul_batch_rank_reads_outside_refuted, matmul_batch_rank_refuted,
  matmul_batched_partial, matmul_column_vector, matmul_empty_batch_refuted,
  matmul_rejects_batches, matmul_rejects_inner_size, matmul_rejects_scalar,
  matmul_row_vector, matmul_vector_batch_refuted, matmul_vectors,
  max_pool_backward_routes, max_pool_channels_last, max_pool_nchw_partial,
  max_pool_nchw_refuted
* LinearProps.v: linear_batched_gradients_refuted, linear_bias_gradient_partial,
  linear_input_gradient_partial, linear_no_bias_partial, linear_rejects,
  linear_value_partial, linear_vector_gradients_refuted, linear_weight_gradient_partial
* MaskProps.v: fill_offset_needs_scalar, fill_offset_outside_refuted,
  fill_offset_range, fill_sets_every_element, masked_fill_forms_agree_partial,
  masked_fill_out_larger_refuted, masked_fill_out_smaller_refuted,
  masked_fill_rejects_shape, masked_fill_value
* ModuleProps.v: each_tensor_once, init_reaches, module_list_named,
  named_parameters_exact, named_states_exact, names_clash_refuted, names_unique,
  sequential_chain, to_both_reaches, to_device_reaches, to_type_reaches, train_reaches,
  zero_grad_frozen_refuted, zero_grad_reaches_partial
* MultiProps.v: multinomial_empty_refuted
* PermProps.v: permute_all_reverses, permute_gradient_is_permuted_back,
  permute_gradient_partial, permute_gradient_refuted, permute_inverse_exists,
  permute_inverse_restores, permute_moves, permute_onto, transpose_rejects,
  transpose_swaps, tril_keeps, tril_triu_decompose, triu_keeps
* PgProps.v: pg_barrier_device, pg_barrier_refuted, pg_destroy_init, pg_env_partial,
  pg_failed_init_refuted, pg_file, pg_port_wraps_refuted, pg_rank_outside_refuted,
  pg_rejects, pg_second_init_fails, pg_tcp_default_port, pg_tcp_port_partial,
  pg_throws_refuted, pg_timeout_ignored_refuted
* PrintProps.v: C103_ends, C103_no_deadlock, C103_threads
* RandProps.v: random_fill_twice_refuted, random_fills_repeat_refuted,
  seed_reproducible, shuffles_continue_partial, unseeded_draws
* ReduceProps.v: extreme_dim_rejects, max_all_partial, max_dim_partial,
  max_of_minus_infinity_refuted, min_all_partial, min_dim_of_infinity_refuted,
  min_dim_partial, sum_adds_all, sum_dims_adds_groups, sum_dims_one_by_one,
  sum_keepdims, sum_rejects
* ReducerProps.v: broadcast_parameters_partial, bucket_limit, bucket_slices,
  buckets_accepted, buckets_partition, ddp_backward_twice, ddp_zero_size_last_refuted,
  ddp_zero_size_refuted
* SVecProps.v: svec_insert_alias_refuted, svec_like_list_partial,
  svec_no_inline_refuted, svec_push_alias_refuted, svec_resize_alias_refuted
* SampleProps.v: cumsum_rejects, cumsum_running_sum, partial_sort_contract_met,
  sort_contract_met, sort_nan_refuted, sort_permutes_partial, sort_rejects,
  sort_row_partial, topk_rejects, topk_row_partial
* SerialProps.v: load_any_file_partial, load_cut_headers_refuted,
  load_dtype_truncated_refuted, load_empty_file, load_not_atomic_refuted,
  load_offset_wraps_refuted, load_restores, load_saved_partial, load_strict_complete,
  load_truncated_partial, load_wrong_magic, load_wrong_version, reload_restores
* ShapeProps.v: flatten_merges_partial, flatten_negative_end_refuted,
  flatten_out_of_range_refuted, flatten_to_end_partial, reshape_correct_partial,
  reshape_negative_refuted, reshape_preserves, rowmajor_index_bijection,
  rowmajor_indices_exactly_valid, squeeze_dim_rejects, squeeze_dim_removes,
  squeeze_removes, unflatten_splits_partial, unflatten_two_inferred_refuted,
  unsqueeze_inserts, unsqueeze_rejects, view_bounds_partial, view_bounds_refuted,
  view_negative_offset_refuted
* StoreProps.v: accept_partial, accept_refuted, store_add_overflow_refuted,
  store_add_text_refuted, store_add_totals_partial, store_adders_distinct_partial,
  store_counter_executes, store_executes_partial, store_linearizable_partial,
  store_lost_wakeup_get_refuted, store_lost_wakeup_refuted, store_no_sleep_partial,
  store_wakes_partial
* StrStoreProps.v: C104_round_trip, C104_strings
* StreamProps.v: barrier_refuted, ddp_incomplete_pass_refuted, ddp_script,
  no_wait_refuted, overlap_runs_end, reduce_scatter_not_waiting, reduce_scatter_refuted,
  waited_and_read_partial
* TcpLifeProps.v: connections_kept_partial, connections_own_partial,
  connections_served_partial, construct_no_listen_refuted, construct_succeeds,
  construct_usable_partial, destroy_refuted, failed_call_silent_refuted,
  memory_there_partial, reset_closes_file_refuted, reset_closes_other_refuted,
  reset_serves_other_refuted, workers_not_asleep, workers_present_refuted,
  workers_registered, workers_wake
* TypedProps.v: C64_copy_checks, C64_equal_size_bits_refuted, C64_mixed_reads_bytes,
  C64_narrower_compare_refuted, C64_narrower_operand_refuted,
  C64_same_type_compare_partial, C64_same_type_partial, C64_wider_operand_cut
* WireProps.v: wire_answer, wire_broken, wire_prefix_free, wire_request,
  wire_requests, wire_send, wire_send_all
* WorkProps.v: work_completed_partial, work_timed_out_refuted,
  work_timeout_from_start_refuted, work_wait_refuted, work_wait_returns,
  work_wait_timeout_partial

**functional_extensionality_dep** (4 theorems)

* CudaReduceProps.v: cuda_sum_dims_refuted
* StreamProps.v: ddp_overlap, overlap_never_stuck, overlap_same_partial

**sig_forall_dec** (5 theorems)

* AttnProps.v: attention_sees
* CollProps.v: all_gather_work_partial
* CudaRopeProps.v: cuda_rope_position_refuted
* OptimProps.v: steplr_step_to_epoch_refuted, steplr_zero_step_size_refuted

**functional_extensionality_dep, sig_forall_dec** (73 theorems)

* AccProps.v: C96_growth
* CollProps.v: all_reduce_delivers, reduce_delivers, reduce_scatter_delivers,
  unused_op_rejected
* CudaLossProps.v: mse_cuda_gradient_partial, mse_cuda_gradient_refuted,
  mse_cuda_rejects_partial, mse_cuda_value_partial, nll_cuda_as_host_partial,
  nll_cuda_empty_refuted, nll_cuda_gradient_partial, nll_cuda_rejects,
  nll_cuda_value_partial
* CudaMeanProps.v: cuda_mean_all_partial, cuda_mean_dim_partial,
  cuda_mean_dims_refuted, cuda_mean_dims_rejects, cuda_mean_scalar,
  cuda_var_all_partial, cuda_var_dim_partial, cuda_var_dims_refuted, cuda_var_scalar
* CudaRopeProps.v: cuda_rope_apply_partial
* DropProps.v: dropout_backward_twice, dropout_eval, dropout_gradient_partial,
  dropout_mean_partial, dropout_op_refuted, dropout_train_partial,
  dropout_zeroes_with_probability_p_partial, expected_is_probability
* FillProps.v: arange_real, arange_real_wrong_way_partial, linspace_real,
  linspace_rejects
* GradProps.v: add_alpha_refuted, add_gradient_partial, div_gradient, mul_gradient,
  relu_gradient, sub_gradient_partial, sum_gradient
* LossProps.v: mse_gradient_partial, mse_gradient_refuted, mse_rejects_partial,
  mse_value_partial, nll_gradient_partial, nll_gradient_rank3_refuted,
  nll_gradient_refuted, nll_rejects, nll_targets_refuted, nll_value_partial
* MnistProps.v: mnist_bounds_refuted, mnist_header_refuted, mnist_items_partial,
  mnist_missing_file, mnist_rejects_magic, mnist_truncated_refuted, transform_pointwise
* OptimProps.v: steplr_closed_form, steplr_resumed
* ReduceProps.v: mean_averages_all, mean_dims_averages_groups, mean_rejects,
  var_mean_all, var_mean_dims_partial, var_mean_shapes_refuted
* ReducerProps.v: ddp_average_one_bucket, ddp_average_partial, ddp_average_refuted,
  ddp_missing_gradient
* StreamProps.v: async_all_reduce

**functional_extensionality_dep, sig_forall_dec, sig_not_dec** (64 theorems)

* AttnProps.v: attention_blind_query_nan, attention_causal_partial,
  attention_dropout_refuted, attention_hidden_irrelevant, attention_is_mean,
  attention_rejects_key_size, attention_rejects_mask_shape, attention_rejects_two_masks,
  attention_value_partial, attention_weights
* CudaLineProps.v: cuda_log_softmax_backward_partial, cuda_softmax_backward_partial,
  cuda_softmax_backward_rejects, cuda_softmax_gradient_partial
* CudaNormProps.v: cuda_layer_norm_partial, cuda_layer_norm_race_refuted,
  cuda_norm_cpu_partial, cuda_norm_rejects, cuda_norm_rows_refuted,
  cuda_norm_undefined_refuted, cuda_rms_norm_partial
* DdpProps.v: ddp_training_partial, ddp_training_refuted
* FusedProps.v: cuda_silu_mul_as_cpu_partial, cuda_silu_mul_partial,
  silu_mul_empty_refuted, silu_mul_partial, silu_mul_rejects_odd
* GradProps.v: sin_cos_gradient
* InitProps.v: init_no_inputs_refuted, init_parameters_partial, init_repeats_refuted,
  init_seeded_same
* NormProps.v: layer_norm_rows_partial, layer_norm_value_partial, norm_empty_refuted,
  norm_rejects, norm_rows_independent_partial, norm_weight_size_refuted,
  rms_norm_rows_partial, rms_norm_value_partial
* OptimProps.v: adadelta_follows_recurrence, adagrad_follows_recurrence,
  adam_follows_recurrence, adamw_follows_recurrence_partial,
  adamw_without_gradient_refuted, no_gradient_no_change, only_steps_change_parameters,
  parameters_do_not_interfere, rmsprop_centered_refuted,
  rmsprop_follows_recurrence_partial, sgd_follows_recurrence_partial,
  sgd_momentum_refuted, sgd_momentum_without_decay, unregistered_parameters_unchanged
* RopeProps.v: rope_context_refuted, rope_norm_partial, rope_relative_partial,
  rope_undone_partial, rope_value_partial
* SoftmaxProps.v: softmax_backward_rejects, softmax_distribution, softmax_gradient,
  softmax_value

**classic, functional_extensionality_dep, sig_forall_dec, sig_not_dec** (151 theorems)

* AccProps.v: C96_cumsum, C96_dot, C96_matmul, C96_mean, C96_mean_dims,
  C96_mean_of_ones_refuted, C96_ones_stop_refuted, C96_sum, C96_sum_dims, C96_whole_sum,
  C96_whole_sum_dims
* Arith16Props.v: bf16_arithmetic_correctly_rounded, bf16_eq_partial, bf16_eq_refuted,
  bf16_limits_partial, bf16_nearest, bf16_of_int_partial, bf16_of_int_refuted,
  bf16_order, bf16_snan_refuted, bf16_tensors, bf16_unary,
  half_arithmetic_correctly_rounded, half_eq_partial, half_eq_refuted,
  half_limits_correct, half_nearest, half_of_int_correctly_rounded, half_order,
  half_tensors, half_unary
* CastProps.v: fill_converts_partial, int_float_int_refuted, toList_item_partial,
  to_bf16_refuted, to_bool_partial, to_bool_refuted, to_converts_partial,
  to_gradient_refuted, to_keeps, to_order_partial, to_out_of_range_refuted,
  to_round_trip, to_sign, to_storage, to_wraps_refuted, wider_types
* CmpProps.v: clamp_between, clamp_one_side, compare_meaning,
  maximum_greatest_partial, maximum_nan_refuted, minimum_least_partial,
  relu_nan_refuted, relu_of_number_partial, sign_of_number_partial, sign_zero_refuted
* CudaLineProps.v: cuda_log_softmax_gradient_partial, cuda_log_softmax_partial,
  cuda_softmax_cpu_partial, cuda_softmax_partial, cuda_softmax_rejects,
  cuda_softmax_wide_refuted
* CudaMultiProps.v: counts_any_order, from_left_is_usable, left_any_order,
  multinomial_cuda_draws_partial, multinomial_cuda_empty_refuted,
  multinomial_cuda_in_range, multinomial_cuda_no_category_refuted,
  multinomial_cuda_nothing_left_refuted, multinomial_cuda_order_refuted,
  multinomial_cuda_rejects, multinomial_cuda_tiny_refuted,
  multinomial_cuda_usable_partial, neighbours_any_order, sum_from_left
* CudaRopeProps.v: cuda_rope_cpu_partial, cuda_rope_empty_refuted, cuda_rope_rejects,
  cuda_rope_table_partial
* DataProps.v: loader_drop_last, loader_each_sample_once_partial,
  loader_epoch_partial, loader_large_refuted, loader_visits_all_partial,
  loader_zero_batch_refuted, sampler_covers_partial, sampler_drop_last,
  sampler_large_refuted, sampler_padding_refuted, sampler_shares_partial
* FloatProps.v: bf16_narrow_monotone, bf16_narrow_rounds_to_nearest_even,
  bf16_round_trip, bf16_widen_exact, half_narrow_monotone,
  half_narrow_rounds_to_nearest_even, half_round_trip, half_widen_bits_exact,
  half_widen_exact
* FsoftProps.v: C102_log_finite_refuted, C102_log_softmax_close,
  C102_log_softmax_partial, C102_long_lines_refuted, C102_rejects, C102_softmax_close,
  C102_softmax_order, C102_softmax_total, C102_softmax_values
* GradProps.v: pow_gradient_base, pow_gradient_exponent, pow_is_power
* MultiProps.v: multinomial_draws_1d_partial, multinomial_draws_partial,
  multinomial_negative_refuted, multinomial_overflow_refuted, multinomial_rejects,
  multinomial_tiny_refuted, u1_in_unit
* NetProps.v: program_gradients_partial
* PrintProps.v: C103_full_refuted, C103_layout, C103_small_numbers_refuted,
  C103_tells_partial
* ProgProps.v: backward_differentiates_program_partial,
  backward_is_derivative_partial, fill_touches_one_tensor_partial,
  fill_touches_one_tensor_refuted, inplace_operand_gradient_refuted,
  inplace_operator_gradient_refuted, inplace_operators_touch_one_tensor,
  inplace_requires_grad_refuted, no_grad_reshape_always_fails, no_grad_reshape_refuted,
  operations_make_one_tensor_partial, overwritten_operand_refuted,
  program_values_partial, reduction_of_scalar_refuted, sums_used_again_refuted
* RopeProps.v: rope_frequencies, rope_rejects, rope_scaled_frequencies, rope_table
* SoftmaxProps.v: logsoftmax_gradient, logsoftmax_is_log, softmax_order,
  softmax_rejects, softmax_shift, softmax_sum_range
* StepProps.v: sgd_step_descends_partial

## What is modelled and what is not

Not modelled anywhere: CUDA memory that is weaker than sequentially consistent, the implementation
of cuBLAS, Thrust, cuRAND, the implementation of NCCL, the C++ memory
model, rounding of tensor arithmetic except where listed under Conventions, log
messages, performance.

Lines of each source file cited by the model (a range covers comments and blank
lines between cited lines); lines not listed are not modelled.

| file | modelled lines | in | left out |
|---|---|---|---|
| src/Data/DataLoader.h | 18-36, 43-66, 73-75 | DataModel, RandModel |  |
| src/Data/Dataset.h | - |  | interface only |
| src/Data/DatasetMNIST.cpp | 21-104 | MnistModel |  |
| src/Data/DatasetMNIST.h | 30-34 | MnistModel |  |
| src/Data/Sampler.h | 24-35, 52-60 | DataModel, RandModel |  |
| src/Data/Transform.h | 14-18, 41-47, 61-69 | LifeModel, MnistModel, NetModel, PermModel, ProgModel |  |
| src/Distributed/Backend.h | 20-25, 44-52, 131-137 | PgModel | interface only |
| src/Distributed/BackendNCCL.cpp | 13-79, 104-150, 201-218 | CollModel, CommModel, PgModel, ReducerModel, StreamModel |  |
| src/Distributed/BackendNCCL.h | 31, 37, 91-92, 110-121, 124-188 | CommModel, PgModel, StreamModel, WorkModel | modelled: collective, communicators; not modelled: NCCL errors |
| src/Distributed/DistributedModule.cpp | 11-27 | DdpModel, StreamDdpModel |  |
| src/Distributed/DistributedModule.h | - |  | declarations only |
| src/Distributed/DistributedProcessGroup.cpp | 18-168 | CommModel, PgModel |  |
| src/Distributed/DistributedProcessGroup.h | 14-19, 56-61, 105-138 | PgModel, StreamModel | modelled: the configuration, destroying, barrier; not modelled: the wrappers of single collectives |
| src/Distributed/DistributedSampler.cpp | 30-60 | DataModel, RandModel |  |
| src/Distributed/DistributedSampler.h | - |  | declarations; setEpoch is an argument of the model |
| src/Distributed/FileStore.cpp | 27-28, 33-42, 46-54, 63-69, 72-232 | CommModel, FileModel, PgModel, StoreModel |  |
| src/Distributed/FileStore.h | - |  | declarations |
| src/Distributed/NCCLUtils.h | 48-60, 67, 81-105 | CommModel | modelled: create and waitReady as a rendezvous; not modelled: NCCL errors, abort, shutdown |
| src/Distributed/ProcessGroup.cpp | 11-15, 70-91, 95-112 | CommModel, PgModel | modelled: backends, timeout; not modelled: passing calls on to a backend |
| src/Distributed/ProcessGroup.h | 21-22, 78 | PgModel, StreamModel | fields only |
| src/Distributed/Reducer.cpp | 16-19, 31-87, 100-204, 219-231 | DdpModel, ReducerModel, StreamDdpModel |  |
| src/Distributed/Reducer.h | 35-46, 63 | DdpModel, ReducerModel, StreamDdpModel |  |
| src/Distributed/Store.cpp | 11-18 | CommModel, FileModel, PgModel, StoreModel, StrStoreModel, TcpLifeModel, WireModel |  |
| src/Distributed/Store.h | - |  | interface only |
| src/Distributed/TCPStore.cpp | 41-51, 58-117, 148-170, 242-247, 262-341, 353-601, 635-643, 707-722, 756-768, 787-798, 805-815, 819-1240 | StoreModel, TcpLifeModel, WireModel |  |
| src/Distributed/TCPStore.h | 17-21 | PgModel | declarations |
| src/Distributed/Types.h | 11-18 | CollModel |  |
| src/Distributed/Work.h | 60-68, 100-106, 109-116 | WorkModel | modelled: the flag and the message; not modelled: the condition variable of the base class |
| src/Distributed/WorkNCCL.cpp | 13-55 | StreamModel, WorkModel |  |
| src/Distributed/WorkNCCL.h | 22, 48 | WorkModel | fields only |
| src/Function/FuncActivation.h | 14-86 | CmpModel, GradModel, LifeModel, NetModel, SoftmaxModel |  |
| src/Function/FuncElemWise.h | 14-158 | AutogradModel, BcastModel, GradModel, LifeModel, NetModel, ProgModel |  |
| src/Function/FuncFused.h | - |  | forward calls a modelled operation; backward is NOT_IMPLEMENTED |
| src/Function/FuncLinalg.h | 14-21 | LifeModel | wrapper of modelled operations |
| src/Function/FuncLoss.h | 14-47 | LifeModel, LossModel, NetModel | wrapper of modelled operations |
| src/Function/FuncNNLayer.h | 14-75, 79-140, 143-210, 213-217, 239-290 | AdvModel, AttnModel, DropModel, LifeModel, LinalgModel, LinearModel, NetModel |  |
| src/Function/FuncReduce.h | 14-66 | GradModel, LifeModel, NetModel, ProgModel |  |
| src/Function/FuncSampling.h | 14-43 | LifeModel | wrapper of modelled operations |
| src/Function/FuncTransform.h | 13-170 | LifeModel, NetModel, PermModel, ProgModel |  |
| src/Functions.h | - |  | includes only |
| src/Initializer.cpp | 13-64 | InitModel |  |
| src/Initializer.h | 13-16 | InitModel |  |
| src/Module/Basic.cpp | 31-39, 43-58, 61-68, 72-89, 93-95 | InitModel |  |
| src/Module/Basic.h | - |  | not modelled |
| src/Module/Loss.cpp | - |  | not modelled: calls of modelled functions |
| src/Module/Loss.h | - |  | not modelled |
| src/Module/Module.h | 13-133, 139-160, 187-193 | InitModel, ModuleModel, SerialModel |  |
| src/Module/Norm.cpp | 14-21, 27-39, 45-51 | InitModel |  |
| src/Module/Norm.h | - |  | not modelled |
| src/Modules.h | - |  | includes only |
| src/Operation/OpElemWise.h | - |  | declarations of operators |
| src/Operation/OpElemWiseCpu.cpp | - |  | registrations; DispatchModel models what registering does |
| src/Operation/OpElemWiseCpu.h | 16-21, 30-42, 65-91, 107-112, 123-250, 273-507 | Arith16Model, AttnModel, BcastModel, CmpModel, CowModel, FusedModel, GradModel, ProgModel, TypedModel |  |
| src/Operation/OpElemWiseCuda.cu | - |  | registrations |
| src/Operation/OpElemWiseCuda.cuh | 124-131, 299-321, 370-392, 406-530 | CudaLossModel, CudaMeanModel, CudaModel, FusedModel, GpuModel |  |
| src/Operation/OpFilling.h | - |  | declarations of operators |
| src/Operation/OpFillingCpu.cpp | - |  | registrations |
| src/Operation/OpFillingCpu.h | 14-109 | CastModel, CowModel, DropModel, FillModel, GradModel, IndexModel, InitModel, MaskModel, ProgModel, RandModel |  |
| src/Operation/OpFillingCuda.cu | - |  | registrations |
| src/Operation/OpFillingCuda.cuh | 15-28, 32-43, 46-143, 161, 165-180, 190-237 | CudaFillModel, CudaLossModel |  |
| src/Operation/OpFused.h | - |  | declarations of operators |
| src/Operation/OpFusedCpu.cpp | - |  | registrations |
| src/Operation/OpFusedCpu.h | 14-39 | FusedModel |  |
| src/Operation/OpFusedCuda.cu | - |  | registrations |
| src/Operation/OpFusedCuda.cuh | 15-48 | FusedModel |  |
| src/Operation/OpLinalg.cpp | 11-266 | AccModel, CudaMatmulModel, LinalgModel |  |
| src/Operation/OpLinalg.h | 50-72 | LinalgModel |  |
| src/Operation/OpLinalgCpu.cpp | - |  | registrations |
| src/Operation/OpLinalgCpu.h | 19-141 | AccModel, LinalgModel |  |
| src/Operation/OpLinalgCuda.cu | - |  | registrations |
| src/Operation/OpLinalgCuda.cuh | 14-137, 142-369 | CudaMatmulModel, CudaWindowModel |  |
| src/Operation/OpLoss.h | - |  | declarations of operators |
| src/Operation/OpLossCpu.cpp | - |  | registrations |
| src/Operation/OpLossCpu.h | 15-95 | LossModel |  |
| src/Operation/OpLossCuda.cu | - |  | registrations |
| src/Operation/OpLossCuda.cuh | 15-95 | CudaLossModel |  |
| src/Operation/OpNNLayer.cpp | 11-26, 66-76, 111 | LineModel, SoftmaxModel |  |
| src/Operation/OpNNLayer.h | 13-22 | RopeModel |  |
| src/Operation/OpNNLayerCpu.cpp | - |  | registrations |
| src/Operation/OpNNLayerCpu.h | 16-354 | AttnModel, DropModel, FsoftModel, LineModel, NormModel, RandModel, RopeModel, SoftmaxModel |  |
| src/Operation/OpNNLayerCuda.cu | - |  | registrations |
| src/Operation/OpNNLayerCuda.cuh | 19-145, 149-155, 160-166, 169-460, 474-511, 540-585, 621-687 | CudaFillModel, CudaLineModel, CudaRopeModel, GpuModel |  |
| src/Operation/OpReduce.cpp | 11-39 | BcastModel, ReduceModel |  |
| src/Operation/OpReduce.h | - |  | declarations of operators |
| src/Operation/OpReduceCpu.cpp | 11-24, 38-48 | BcastModel, ReduceModel |  |
| src/Operation/OpReduceCpu.h | 13-58, 81-315 | AccModel, BcastModel, BufModel, LifeModel, ProgModel, ReduceModel |  |
| src/Operation/OpReduceCuda.cu | 23 | CudaExtremeModel, CudaLineModel, CudaLossModel, CudaMeanModel, CudaReduceModel, GpuModel | registrations |
| src/Operation/OpReduceCuda.cuh | 37-40, 64-75, 90-103, 110-115, 127-406, 433-509, 529-715, 722-752, 759-829 | CudaExtremeModel, CudaLineModel, CudaLossModel, CudaMeanModel, CudaReduceModel, GpuModel |  |
| src/Operation/OpSampling.h | - |  | declarations of operators |
| src/Operation/OpSamplingCpu.cpp | - |  | registrations |
| src/Operation/OpSamplingCpu.h | 16-205 | AccModel, LineModel, MultiModel, RandModel, SampleModel |  |
| src/Operation/OpSamplingCuda.cu | 21-191, 197-255, 261-321, 327-369 | CudaMultiModel, CudaSampleModel | the inside of Thrust and curand (parameters), and the registrations |
| src/Operation/OpSamplingCuda.cuh | - |  | not modelled |
| src/Operation/OpTransform.cpp | 16-52, 93-447, 453 | AdvModel, BufModel, CollModel, CowModel, CutModel, IndexModel, PermModel, ProgModel, ReducerModel, ShapeModel |  |
| src/Operation/OpTransform.h | - |  | declarations of operators |
| src/Operation/OpTransformCpu.cpp | 11-48 | CastModel | modelled: the cast; the rest are registrations |
| src/Operation/OpTransformCpu.h | 18-46, 54-213, 216-218, 221-345, 349-396, 399-442 | AdvModel, BufModel, CowModel, IndexModel, LinalgModel, PermModel |  |
| src/Operation/OpTransformCuda.cu | - |  | registrations |
| src/Operation/OpTransformCuda.cuh | 20-27, 39-106, 121-133, 151-163, 178-207, 229-258, 270-274, 295-299, 344-353, 375-636, 647-763 | CudaMoveModel, GpuModel |  |
| src/Operations.h | - |  | includes only |
| src/Optimizer.cpp | 14-37, 48-220 | AutogradModel, OptimModel, StepModel |  |
| src/Optimizer.h | 19-23, 27 | DdpModel, OptimModel |  |
| src/Scheduler.cpp | 11-16 | OptimModel |  |
| src/Scheduler.h | 18-33, 39-48, 53-54 | OptimModel |  |
| src/Serializer.cpp | 18-194 | SerialModel |  |
| src/Serializer.h | 21-22 | SerialModel |  |
| src/Tensor/Allocator.cpp | - |  | the system allocator is an adversary in AllocModel |
| src/Tensor/Allocator.h | 19-25 | AllocModel |  |
| src/Tensor/AutogradHook.h | - |  | declarations |
| src/Tensor/AutogradMeta.cpp | 18-128 | AutogradModel, DdpModel, LifeModel, ModuleModel, NetModel, OptimModel, ProgModel |  |
| src/Tensor/AutogradMeta.h | 40-43 | AutogradModel, LifeModel, ModuleModel |  |
| src/Tensor/CachedAllocator.cpp | 23-28, 36, 40-63, 79-288 | AllocModel |  |
| src/Tensor/CachedAllocator.h | 13-36 | AllocModel |  |
| src/Tensor/DType.h | 20-90, 193-200 | AccModel, CastModel, DispatchModel, LinalgModel, PrintModel, SerialModel, TypedModel |  |
| src/Tensor/Device.h | 13-30 | DispatchModel, PgModel, PrintModel |  |
| src/Tensor/Dispatch.h | 21-23, 32-48, 59-91, 97-108, 111-125 | DispatchModel, TypedModel |  |
| src/Tensor/Function.cpp | 13-22 | AutogradModel, LifeModel |  |
| src/Tensor/Function.h | 20-150 | AutogradModel, DropModel, LifeModel, NetModel, ProgModel |  |
| src/Tensor/IValue.h | - |  | not modelled |
| src/Tensor/NoGradGuard.cpp | - |  | one thread-local variable; the header is modelled |
| src/Tensor/NoGradGuard.h | 13-18 | AutogradModel |  |
| src/Tensor/Options.h | - |  | not modelled, except as arguments |
| src/Tensor/Scalar.h | 37-49 | CastModel | modelled: conversions; not modelled: the variant |
| src/Tensor/Storage.cpp | 28-77 | BufModel, CowModel, CudaReduceModel, CutModel, StreamModel |  |
| src/Tensor/Storage.h | - |  | declarations |
| src/Tensor/Tensor.cpp | 17-26, 29-33, 41-45, 94-144, 165-168, 176-196, 224-245, 249, 288-291, 305 | AttnModel, AutogradModel, BufModel, CastModel, CowModel, CudaLossModel, CudaMeanModel, GradModel, LifeModel, ModuleModel, NetModel, OptimModel, ProgModel, TypedModel |  |
| src/Tensor.h | - |  | includes only |
| src/Tensor/Tensor.h | 31-34, 91, 115, 126, 282-283, 327-361 | AttnModel, CastModel, CowModel, CudaLossModel, FillModel, LifeModel, NetModel, PrintModel, ProgModel |  |
| src/Tensor/TensorImpl.cpp | 13-248 | AutogradModel, CowModel, CutModel, LinalgModel, SerialModel, ShapeModel, TensorModel |  |
| src/Tensor/TensorImpl.h | 34-56, 60-62, 88-95, 98-125 | AttnModel, BcastModel, CastModel, CowModel, CudaModel, CutModel, FusedModel, ModuleModel, ProgModel, SerialModel, ShapeModel, TensorModel, TypedModel |  |
| src/Tensor/TensorIterator.cpp | 13-106 | BcastModel, CudaModel |  |
| src/Tensor/TensorIterator.cuh | 45-115, 124-162 | CudaModel |  |
| src/Tensor/TensorIterator.h | 51-54, 63-138 | BcastModel, TypedModel |  |
| src/Tensor/TensorPrinter.cpp | 16-45, 53-69, 91-98, 102-104, 107, 110-121 | PrintModel |  |
| src/Tensor/TensorPrinter.h | - |  | declarations only |
| src/TinyTorch.h | - |  | includes only |
| src/Utils/BFloat16.h | 56-63, 72-85, 90-99, 102-108, 131-147, 211, 215-283, 287-297, 329-337 | AccModel, Arith16Model, CastModel, CmpModel, FloatModel, FsoftModel |  |
| src/Utils/CUDAMath.h | 26-28, 31-33 | CudaExtremeModel, CudaLineModel |  |
| src/Utils/CUDATypes.h | - |  | not modelled (CUDA) |
| src/Utils/CUDAUtils.cpp | 46, 80-94, 172-186 | CudaFillModel, CudaModel, CudaReduceModel, StreamModel | modelled: waitStream; not modelled: devices and handles |
| src/Utils/CUDAUtils.h | 64-81, 187-190, 212-222, 262-264 | CudaMatmulModel, GpuModel, StreamModel | modelled: record and block of events; the rest not |
| src/Utils/Half.h | 90-215, 226-257, 266-349, 355-363, 367-373, 388-410, 459, 463-531, 535-545, 576-584 | AccModel, Arith16Model, CastModel, CmpModel, FloatModel, FsoftModel |  |
| src/Utils/Logger.cpp | 14-18, 24, 29-33, 56-69 | PrintModel |  |
| src/Utils/Logger.h | 17, 20-25 | PrintModel |  |
| src/Utils/MMapUtils.cpp | - |  | not modelled: SerialModel reads the mapped bytes |
| src/Utils/MMapUtils.h | - |  | not modelled |
| src/Utils/Macros.h | - |  | ASSERT and NOT_IMPLEMENTED are failures in the model |
| src/Utils/MathUtils.h | 16-26 | CudaLineModel |  |
| src/Utils/RandomGenerator.cpp | - |  | CUDA generator and static members |
| src/Utils/RandomGenerator.h | 16-26, 32-41 | CudaFillModel, RandModel |  |
| src/Utils/Timer.cpp | - |  | not modelled |
| src/Utils/Timer.h | - |  | not modelled |
| src/Utils/VectorUtils.h | 24, 38-64, 67-110, 115-178, 185, 201-216 | SVecModel |  |

## Testing the theorems

`seeded/LOG.jsonl` records edits of the model in a scratch copy, each the effect of
a realistic bug, with the theorems that stopped proving and, where none did, the
theorem that was tightened or the reason why the claim still holds.
