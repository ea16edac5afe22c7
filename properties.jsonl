{"id": "C01", "title": "Live allocations of the caching allocator never overlap", "statement": "After any history of CachedAllocator::allocate and deallocate calls (including histories in which the underlying allocator sometimes fails), the byte ranges handed out and not yet returned are pairwise disjoint, each lies completely inside one region obtained from the underlying allocator, and each is at least as long as the caller asked for.", "quantifier": "every finite sequence of allocate(n)/deallocate(p) calls, every request size n > 0, every placement chosen by the underlying allocator (regions only assumed disjoint), every pattern of underlying failures", "why_tests_cant": "Overlap appears only for particular interleavings of split, best-fit reuse, merge and cache release; tests sample a handful of histories and sizes.", "anchors": ["src/Tensor/CachedAllocator.cpp: mallocImpl, freeImpl, getFreeBlock, shouldSplit, tryMergeBlocks", "src/Tensor/CachedAllocator.h: CachedAllocator"]}
{"id": "C02", "title": "The caching allocator never leaks or double-frees a region of the underlying allocator", "statement": "In every reachable state the memory obtained from the underlying allocator is exactly tiled by live and cached blocks; a region is handed back to the underlying allocator only when no live allocation points into it, and at most once; once the user has freed everything, releasing the cache returns every region, so the destructor's checks succeed. Freeing a pointer that was never handed out changes nothing.", "quantifier": "every finite history of allocate/deallocate/release", "why_tests_cant": "A leak or a premature release depends on the whole split/merge history of a region.", "anchors": ["src/Tensor/CachedAllocator.cpp: releaseBlock, releaseBlocks, releaseCachedBlocks, CachedAllocatorImpl, freeBlock, deallocate"]}
{"id": "C03", "title": "Freed neighbours are always coalesced", "statement": "In every reachable state no two adjacent blocks of the same region are both free; hence when the last live allocation of a region is freed, the region is again one single free block that spans it and any later request of the same size class that fits in it is served without asking the underlying allocator.", "quantifier": "every finite history of allocate/deallocate", "why_tests_cant": "Fragmentation bugs need specific free orders (left neighbour first, right first, both).", "anchors": ["src/Tensor/CachedAllocator.cpp: freeBlock, tryMergeBlocks, mallocImpl"]}
{"id": "C04", "title": "Reshape-family operations preserve the elements and their order", "statement": "reshape, view, flatten, unflatten, squeeze and unsqueeze either leave the tensor unchanged (invalid request) or give it the requested shape, with the same number of elements in the same row-major order; a single -1 is replaced by the only value that keeps the element count; a successful call never produces a negative dimension.", "quantifier": "every source shape, every requested shape / dimension argument (positive, negative, zero, -1, out of range)", "why_tests_cant": "The argument space (ranks, zero-size dimensions, negative numbers, -1 position) is infinite; unit tests pick a few shapes.", "anchors": ["src/Tensor/TensorImpl.cpp: reshape_, flatten_, unflatten_, squeeze_, unsqueeze_, computeNumel, computeStrides", "src/Operation/OpTransform.cpp: reshapeOpImpl .. unsqueezeOpImpl"]}
{"id": "C05", "title": "Row-major index/offset maps are a bijection", "statement": "For every shape, the strides computed for a tensor map the in-range multi-indices one-to-one onto the offsets 0..numel-1, and the offset-to-index conversion is its inverse; so no two elements share a cell and no cell is unreachable or out of bounds.", "quantifier": "every shape (any rank, any dimension sizes), every index, every offset", "why_tests_cant": "Quantifies over all shapes and all offsets.", "anchors": ["src/Tensor/TensorImpl.cpp: computeStrides, computeNumel", "src/Operation/OpTransform.cpp: indicesToOffset, offsetToIndices"]}
{"id": "C06", "title": "Broadcast result shapes follow the NumPy/PyTorch rule", "statement": "Combining tensors of several shapes succeeds exactly when, aligned from the last dimension, in every position all sizes other than 1 agree, and the result has that size; the outcome does not depend on operand order.", "quantifier": "every list of operand shapes, including zero-size dimensions", "why_tests_cant": "Infinite family of rank/size combinations; zero-size dimensions are rarely tested.", "anchors": ["src/Tensor/TensorIterator.cpp: setupBroadcast, broadcastShape, alignShape, alignStrides"]}
{"id": "C07", "title": "Element-wise operations read exactly the broadcast-selected elements", "statement": "For every element-wise operation f and operands that broadcast, output element i is f applied to the operand elements selected by the broadcasting rule, every read is inside its operand and every output element is written exactly once; the fast paths (all scalars, equal shapes, scalar with tensor) give the same result as the general path.", "quantifier": "every number of operands, every broadcastable shapes, every element function, every tensor contents", "why_tests_cant": "The incremental odometer must stay in phase over the whole iteration space for arbitrary shapes.", "anchors": ["src/Tensor/TensorIterator.h: forEachImpl, forEachGeneric, forEachBroadcast", "src/Operation/OpElemWiseCpu.h: binaryOpCpuImpl, ternaryOpCpuImpl"]}
{"id": "C08", "title": "The gradient of a broadcast operand is summed back over the broadcast positions", "statement": "For an element-wise operation, the gradient delivered to an operand has the operand's own shape and each of its entries is the sum of the incoming gradient over all output positions that read that entry (broadcast and un-broadcast are adjoint).", "quantifier": "every operand shape, every broadcast result shape, every gradient", "why_tests_cant": "Adjointness is a statement about all shapes and all values.", "anchors": ["src/Function/FuncElemWise.h: reduceGrad", "src/Operation/OpReduceCpu.h: reduceOpSumDimsCpuImpl", "src/Operation/OpReduceCpu.cpp: getReduceDstIndex"]}
{"id": "C09", "title": "Permute and transpose move elements to the permuted index and nothing else", "statement": "permute(dims) returns a tensor whose shape is the permuted shape and whose element at permuted index is the source element; permuting with the inverse permutation restores the tensor; transpose(i,j) is the permutation swapping i and j, including its fast path for size-1 dimensions; the gradient through permute is the incoming gradient permuted back.", "quantifier": "every shape, every permutation, every pair of dimensions, every contents", "why_tests_cant": "All permutations of all ranks.", "anchors": ["src/Operation/OpTransformCpu.h: permuteOpCpuImpl, permuteAllOpCpuImpl, transposeOpCpuImpl", "src/Function/FuncTransform.h: FuncPermute, FuncPermuteAll"]}
{"id": "C10", "title": "split / chunk / narrow cut a tensor without loss, and concat / stack join without loss", "statement": "split(size), split(sections) and chunk(n) return consecutive pieces along the dimension whose concatenation is the original tensor; narrow(dim,start,len) is exactly that index range; concatenating pieces and splitting at the same boundaries gives the pieces back; stack adds one dimension whose slices are the inputs.", "quantifier": "every shape, dimension, piece size, section list, chunk count, number of operands, contents", "why_tests_cant": "Block-copy arithmetic (outer/inner block sizes, remainders) for every shape and cut.", "anchors": ["src/Operation/OpTransform.cpp: splitOpImplDetail, splitOpImpl, splitSectionsOpImpl, chunkOpImpl, concatOpImpl, stackOpImpl, narrowOpImpl"]}
{"id": "C11", "title": "Integer indexing returns the addressed sub-tensor of any tensor, including views", "statement": "index(t, [i0..ik]) returns the sub-tensor of t at these leading coordinates (negative coordinates count from the end), whatever the origin of t: a freshly created tensor or a slice obtained by split/narrow/index of another tensor.", "quantifier": "every shape, every in-range index list, every way t was produced", "why_tests_cant": "Slices of slices and offset views are an unbounded family.", "anchors": ["src/Operation/OpTransform.cpp: indexOpImpl, indexPutOpImpl, computeIndexAndStride"]}
{"id": "C12", "title": "In-place writes never show through another tensor", "statement": "Cloning, reshaping or slicing a tensor gives an independent value: writing to one of them in place (fill, arithmetic in-place operators, index assignment, scatter, copy) never changes the elements read through another one.", "quantifier": "every sequence of create / handle copy / clone / slice / in-place write operations, every aliasing pattern", "why_tests_cant": "Copy-on-write bugs need particular sharing histories.", "anchors": ["src/Tensor/TensorImpl.cpp: copyOnWrite, ensureStorage", "src/Tensor/Tensor.cpp: clone, copy_, inplaceSet", "src/Operation/OpElemWiseCpu.h: unaryOpOutCpuImpl, unaryOpInplaceCpuImpl, binaryOpInplaceCpuImpl", "src/Operation/OpTransformCpu.h: indexPutAdvanceOpCpuImpl"]}
{"id": "C13", "title": "A tensor view never reaches outside its storage", "statement": "Every tensor the API lets you build on existing storage addresses only bytes inside that storage, i.e. the constructor's bounds check accepts exactly the views that fit.", "quantifier": "every storage size, element type, shape and offset", "why_tests_cant": "The check mixes element and byte units, so only specific dtype/offset combinations expose it.", "anchors": ["src/Tensor/TensorImpl.cpp: TensorImpl(shape, options, storage, offset), setStorage"]}
{"id": "C14", "title": "expand, gather, scatter, index_select and repeat_interleave address the right elements", "statement": "expand repeats size-1 dimensions and leaves the others alone, and rejects incompatible targets; gather reads and scatter writes t at the coordinates obtained by replacing the coordinate of one dimension by the index value; index_select picks slices by index; repeat_interleave(k) emits each slice k times consecutively.", "quantifier": "every shape, dimension, index tensor and contents", "why_tests_cant": "Index arithmetic over all ranks and dimensions.", "anchors": ["src/Operation/OpTransformCpu.h: expandOpCpuImpl, indexCoordForEach, gatherOpCpuImpl, scatterOpCpuImpl, indexSelectOpCpuImpl, repeatInterleaveOpCpuImpl"]}
{"id": "C15", "title": "Reductions combine exactly the elements of each reduced group", "statement": "sum/mean over all elements, one dimension or a list of dimensions return, at each output position, the sum/mean of exactly those input elements whose remaining coordinates equal the output position; keepdims only changes the reported shape; reducing several dimensions at once equals reducing them one after the other.", "quantifier": "every shape, every set of dimensions, both keepdims values, every contents", "why_tests_cant": "All ranks and all dimension subsets.", "anchors": ["src/Operation/OpReduceCpu.h: reduceOpAllCpuImpl, reduceMultiDim, reduceOpSumDimsCpuImpl, reduceOpMeanDimsCpuImpl", "src/Operation/OpReduceCpu.cpp: getReduceSrcIndex, getReduceDstIndex", "src/Operation/OpReduce.cpp: getReduceShape"]}
{"id": "C16", "title": "max / min / argmax / argmin return an attained extreme and its first position", "statement": "max (min) over all elements or along a dimension returns a value that occurs among the reduced elements and is >= (<=) all of them, and the reported index is the first position where it occurs.", "quantifier": "every non-empty group of elements, including the most negative representable values and infinities", "why_tests_cant": "Depends on the numeric extremes used to initialise the scan.", "anchors": ["src/Operation/OpReduceCpu.h: OpCpuReduceMin, OpCpuReduceMax, defaultVal, reduceIdxAll, reduceIdxDimImpl"]}
{"id": "C17", "title": "Matrix multiplication is the matrix product for every transpose flag and batch broadcast", "statement": "matmul of 2-D tensors returns sum_k A[i,k]*B[k,j] with either operand optionally transposed; for 1-D operands it is the inner or matrix-vector product; for batched operands batch dimensions broadcast and every batch is multiplied independently.", "quantifier": "every size, every transpose flag, every pair of batch shapes, every contents", "why_tests_cant": "Quantifies over all shapes and batch-rank combinations.", "anchors": ["src/Operation/OpLinalg.cpp: matmulOpImpl, matmulOpImplDetail, broadcastShape, makePaddedStrides", "src/Operation/OpLinalgCpu.h: gemmCpuImpl, dotOpCpuImpl"]}
{"id": "C18", "title": "im2col gathers the sliding windows and col2im is its adjoint", "statement": "im2col lists, for every output position, exactly the kernel-window elements (zero for padding) and never reads outside the image; col2im adds every column entry back to the pixel it came from, i.e. <im2col x, y> = <x, col2im y>.", "quantifier": "every image size, channel count, batch size, kernel, stride and padding", "why_tests_cant": "All geometry parameters at once.", "anchors": ["src/Operation/OpLinalgCpu.h: im2colOpCpuImpl, col2imOpCpuImpl"]}
{"id": "C19", "title": "conv2d computes the cross-correlation in NCHW layout", "statement": "conv2d(x,w,b)[n,o,i,j] = b[o] + sum over c,u,v of w[o,c,u,v] * x[n,c,i*s+u-p,j*s+v-p], for every batch, output channel and position.", "quantifier": "every image, kernel, stride, padding, batch and channel counts", "why_tests_cant": "Layout errors are invisible for one output channel or one output pixel, which small tests use.", "anchors": ["src/Function/FuncNNLayer.h: FuncConv2D", "src/Operation/OpLinalgCpu.h: im2colOpCpuImpl"]}
{"id": "C20", "title": "max_pool2d returns the window maximum in NCHW layout", "statement": "maxPool2d(x)[n,c,i,j] is the maximum of channel c's window at (i,j) of image n, and its gradient is routed to the maximising pixel.", "quantifier": "every image, kernel, stride, padding, batch and channel count", "why_tests_cant": "Layout errors are invisible for one channel or one output pixel.", "anchors": ["src/Function/FuncNNLayer.h: FuncMaxPool"]}
{"id": "C21", "title": "Backward visits every contributing operation once, after all of its consumers", "statement": "backward() on any result runs the backward rule of each operation the result depends on exactly once, and only after every dependent operation has delivered its gradient, whatever the sharing in the graph.", "quantifier": "every finite acyclic computation graph", "why_tests_cant": "Ordering bugs need particular diamond-shaped sharing patterns.", "anchors": ["src/Tensor/AutogradMeta.cpp: buildBackwardGraph, backward", "src/Tensor/Function.h: collectTensorInfo, apply"]}
{"id": "C22", "title": "Leaf gradients are the sum over all paths of the products of local derivatives", "statement": "After backward() every leaf that requires grad holds (added to what it held before) the total derivative of the result, i.e. the sum over all paths of the products of local derivative factors; gradients of unrelated tensors are untouched.", "quantifier": "every computation graph, every values, every order of operands", "why_tests_cant": "Accumulation and buffer-sharing errors show only for particular reuse patterns.", "anchors": ["src/Tensor/AutogradMeta.cpp: addGrad, backward", "src/Function/FuncElemWise.h: FuncAdd, FuncSub, FuncMul"]}
{"id": "C23", "title": "zero_grad followed by backward gives the gradient of that pass only", "statement": "Repeating {zero_grad on all leaves; forward; backward} any number of times leaves in every leaf the gradient of the last pass; calling backward twice on the same graph accumulates exactly twice the gradient.", "quantifier": "every number of repetitions, every graph", "why_tests_cant": "History-dependent: needs two or more passes and shared gradient buffers.", "anchors": ["src/Tensor/AutogradMeta.cpp: zeroGrad, addGrad, backward", "src/Tensor/Tensor.cpp: zeroGrad"]}
{"id": "C24", "title": "Gradient rules of the element-wise operations are the true derivatives", "statement": "For add, sub, mul, div, pow, sin, cos (with their scalar parameters, e.g. alpha in self + alpha*other) and the activations, the factor applied to the incoming gradient equals the mathematical partial derivative of the forward function wherever it is differentiable.", "quantifier": "every real input and every parameter value", "why_tests_cant": "Derivative identities hold or fail for all reals; tests check few points.", "anchors": ["src/Function/FuncElemWise.h", "src/Function/FuncActivation.h", "src/Operation/OpElemWiseCpu.h: OpCpuSinBackwardP1, OpCpuCosBackwardP1, OpCpuDivBackwardP2, OpCpuPowBackwardP1, OpCpuPowBackwardP2"]}
{"id": "C25", "title": "No-grad scopes nest and restore", "statement": "Inside any nesting of no-grad scopes no operation records a graph; leaving a scope restores exactly the mode that was active when it was entered; modes set by nested scopes never leak out.", "quantifier": "every properly nested sequence of scope entries/exits and operations", "why_tests_cant": "All nesting depths and orders.", "anchors": ["src/Tensor/NoGradGuard.h", "src/Tensor/Function.h: apply"]}
{"id": "C26", "title": "Gradient hooks: each registered hook runs once per backward and unregistering removes exactly that hook", "statement": "registerHook returns an identifier; until unregisterHook is called with it, the hook runs exactly once for every gradient delivery, in registration order, and unregistering an identifier removes that hook and no other.", "quantifier": "every sequence of register/unregister/backward calls", "why_tests_cant": "Identifier reuse depends on the order of removals.", "anchors": ["src/Tensor/AutogradMeta.cpp: registerHook, unregisterHook, applyHooks"]}
{"id": "C27", "title": "float32 to bfloat16 conversion is round-to-nearest-even, and back is exact", "statement": "Every bfloat16 value survives conversion to float32 and back; converting any float32 gives the nearest bfloat16, ties to even, overflow to infinity, NaN to NaN; the conversion is monotone.", "quantifier": "all 2^32 float32 bit patterns and all 2^16 bfloat16 bit patterns", "why_tests_cant": "2^32 inputs; tie and overflow cases are rare.", "anchors": ["src/Utils/BFloat16.h: f32_from_bits, round_to_nearest_even"]}
{"id": "C28", "title": "Half precision conversion is exact one way and correctly rounded the other", "statement": "Every half value (including subnormals, infinities, signed zero; NaN stays NaN) survives conversion to float32 and back, the widened float has exactly the same real value, and float32 to half rounds to nearest even with overflow to infinity and gradual underflow.", "quantifier": "all 2^16 half patterns, all 2^32 float32 patterns", "why_tests_cant": "2^32 inputs, subnormal and tie cases.", "anchors": ["src/Utils/Half.h: fp16_ieee_to_fp32_value, fp16_ieee_to_fp32_bits, fp16_ieee_from_fp32_value"]}
{"id": "C29", "title": "A saved module loads back identically", "statement": "Saving a set of named tensors and loading the file into a module with the same names, shapes and element types restores every byte of every tensor and nothing else changes.", "quantifier": "every set of distinct names, shapes, dtypes and contents", "why_tests_cant": "All names (any bytes), ranks, zero-size tensors and orders.", "anchors": ["src/Serializer.cpp: save, load"]}
{"id": "C30", "title": "Loading an invalid or mismatching file is rejected without reading or writing out of bounds", "statement": "load returns false for wrong magic/version, truncated files, unexpected/missing names in strict mode, shape or dtype mismatch; it never reads past the file and a rejected load leaves the module unchanged.", "quantifier": "every byte string as file content, every module", "why_tests_cant": "Adversarial file contents (64-bit wrap-around of offsets, truncation at any byte) are unbounded.", "anchors": ["src/Serializer.cpp: load"]}
{"id": "C31", "title": "StepLR follows its closed form", "statement": "After t calls of step() the learning rate is lr0 * gamma^(t div stepSize), whatever t.", "quantifier": "every step count, positive step size, gamma, and initial rate", "why_tests_cant": "Unbounded number of steps.", "anchors": ["src/Scheduler.cpp: Scheduler, StepLR", "src/Scheduler.h: StepLR"]}
{"id": "C32", "title": "Optimizer updates follow their published recurrences for any number of steps", "statement": "SGD (momentum, dampening, Nesterov, weight decay), Adagrad, RMSprop, Adadelta, Adam and AdamW update every parameter that has a gradient according to the documented recurrence, keep separate state per parameter, and leave parameters without gradient unchanged.", "quantifier": "every number of steps, parameter values, gradients, hyper-parameters", "why_tests_cant": "State accumulates over unboundedly many steps.", "anchors": ["src/Optimizer.cpp"]}
{"id": "C33", "title": "A data loader epoch visits every sample exactly once", "statement": "One pass over a DataLoader yields the sampler's indices, each exactly once, cut into consecutive batches of batchSize (the last one possibly shorter, or dropped with dropLast), and size() is the number of batches actually produced.", "quantifier": "every dataset size, batch size, dropLast and permutation", "why_tests_cant": "Float rounding in the batch count only breaks above 2^24 samples.", "anchors": ["src/Data/DataLoader.h", "src/Data/Sampler.h"]}
{"id": "C34", "title": "The distributed sampler gives all ranks equally many samples and jointly covers the dataset", "statement": "For every world size the ranks get index lists of equal length, the lists are disjoint up to padding, and without dropLast every sample index is assigned to some rank.", "quantifier": "every dataset size, world size, rank, shuffle order, dropLast", "why_tests_cant": "Padding and float rounding fail only for particular n/world-size combinations.", "anchors": ["src/Distributed/DistributedSampler.cpp"]}
{"id": "C35", "title": "The TCP store behaves like one linearizable map", "statement": "For any interleaving of clients, set/get/add/check/delete/numKeys behave as if executed one at a time on a single key-value map; add returns the running total, so concurrent adders obtain distinct consecutive values.", "quantifier": "every number of clients, every interleaving of requests", "why_tests_cant": "Interleavings are unbounded.", "anchors": ["src/Distributed/TCPStore.cpp: handleSet, handleGet, handleAdd, handleCheck, handleDelete, handleNumKeys"]}
{"id": "C36", "title": "TCP store messages decode to what was encoded", "statement": "Every request and response written by one side is decoded by the other side to the same command, keys and values, consuming exactly the bytes sent, so consecutive messages on one connection never mix.", "quantifier": "every command, key and value byte string, every message sequence, every fragmentation of the byte stream", "why_tests_cant": "All byte strings and all fragmentations.", "anchors": ["src/Distributed/TCPStore.cpp: sendBytes, recvBytes, client and server handlers"]}
{"id": "C37", "title": "A store waiter is woken once its key is present", "statement": "A client blocked in get/wait for keys returns once all keys are present and is never left sleeping (until timeout) while they are.", "quantifier": "every interleaving of waiters, setters and deleters", "why_tests_cant": "Lost wake-ups need specific interleavings.", "anchors": ["src/Distributed/TCPStore.cpp: handleWait, handleGet, handleSet, handleAdd, handleDelete"]}
{"id": "C38", "title": "The TCP store server keeps accepting clients", "statement": "The server's accept loop never blocks itself: it can serve any number of successive clients.", "quantifier": "every number of accepted connections", "why_tests_cant": "Only shows after more than 128 connections.", "anchors": ["src/Distributed/TCPStore.cpp: serverLoop, cleanupFinishedThreads"]}
{"id": "C39", "title": "The file store's add is atomic across processes and a key never set is never reported present", "statement": "Concurrent add calls from several processes never lose an increment; get returns only values some set/add wrote; deleteKey reports whether the key existed.", "quantifier": "every interleaving of file-system steps of several processes", "why_tests_cant": "Race windows between open, lock, read, write and unlink.", "anchors": ["src/Distributed/FileStore.cpp: FileLock, set, get, add, deleteKey, check"]}
{"id": "C40", "title": "Gradient buckets partition the parameters", "statement": "The reducer assigns every parameter to exactly one bucket and one disjoint slice of that bucket's flat buffer, keeping bucket sizes within the limit unless a single parameter exceeds it.", "quantifier": "every list of parameter sizes, dtypes and every bucket limit", "why_tests_cant": "All parameter lists.", "anchors": ["src/Distributed/Reducer.cpp: buildBuckets, createBucket"]}
{"id": "C41", "title": "Distributed gradients are averaged once, whatever the order in which they become ready", "statement": "After a backward pass in which every parameter received a gradient, every rank's gradients equal the average over ranks, each bucket having been reduced exactly once, for every order of gradient arrival.", "quantifier": "every arrival order on every rank, every number of ranks and buckets", "why_tests_cant": "Arrival orders are factorial.", "anchors": ["src/Distributed/Reducer.cpp: onGradReady, reduceBucket, checkAllBucketsReady, prepareForBackward"]}
{"id": "C42", "title": "SmallVector behaves like a list", "statement": "Any sequence of SmallVector operations (construction, push, insert, resize, reserve, clear, copy, move, element access, comparison, destruction) over any number of vectors has the same observable contents and answers as the same sequence on a plain list, across the inline-to-heap switch.", "quantifier": "every operation sequence and every inline capacity", "why_tests_cant": "The inline/heap switch and element shifting for every length.", "anchors": ["src/Utils/VectorUtils.h: SmallVector"]}
{"id": "C43", "title": "softmax yields a probability distribution and logSoftmax is its logarithm", "statement": "Along the chosen dimension softmax outputs are positive and sum to 1, are unchanged when a constant is added to the inputs, preserve order, and logSoftmax is the logarithm of softmax; their backward rules are the true vector-Jacobian products.", "quantifier": "every shape, dimension and real input", "why_tests_cant": "Holds for all real vectors.", "anchors": ["src/Operation/OpNNLayerCpu.h: softmaxForwardCpuImpl, softmaxOpBackwardCpuImpl, logSoftmaxOpBackwardCpuImpl", "src/Operation/OpNNLayer.cpp: getSoftmaxDimInfo"]}
{"id": "C44", "title": "RoPE is a norm-preserving rotation depending only on relative position in attention scores", "statement": "Applying rotary embedding preserves each pair's norm, is undone by the opposite rotation, and inner products of rotated queries and keys depend only on the position difference; the table lookup never leaves the pre-computed context.", "quantifier": "every position, head dimension, input", "why_tests_cant": "All positions and vectors.", "anchors": ["src/Operation/OpNNLayerCpu.h: ropeInitOpCpuImpl, ropeApplyOpCpuImpl"]}
{"id": "C45", "title": "sort and topk return the extreme elements in order with their positions", "statement": "sort returns a permutation of each row in order together with the positions; topk returns k largest (smallest) entries: no element left out beats an element returned.", "quantifier": "every row length, k, contents, ties, both directions", "why_tests_cant": "All inputs including ties.", "anchors": ["src/Operation/OpSamplingCpu.h: topkOpCpuImpl, sortOpCpuImpl"]}
{"id": "C46", "title": "cumsum is the running sum", "statement": "cumsum along a dimension returns at each position the sum of all entries up to and including it along that dimension, the other coordinates fixed.", "quantifier": "every shape, dimension, contents", "why_tests_cant": "All shapes/dimensions.", "anchors": ["src/Operation/OpSamplingCpu.h: cumsumOpCpuImpl"]}
{"id": "C47", "title": "multinomial draws valid categories and never repeats without replacement", "statement": "Every drawn index is a category of positive weight; without replacement the drawn indices of a row are pairwise distinct.", "quantifier": "every weight vector, every outcome of the random generator", "why_tests_cant": "Quantifies over all random outcomes, including boundary draws.", "anchors": ["src/Operation/OpSamplingCpu.h: multinomialOpCpuImpl"]}
{"id": "C48", "title": "After manual_seed successive random fills continue one stream", "statement": "manual_seed makes the following random results reproducible, and successive random fills draw successive, different parts of the stream.", "quantifier": "every seed, every sequence of random operations", "why_tests_cant": "Stream state is invisible to single-call tests.", "anchors": ["src/Utils/RandomGenerator.h", "src/Operation/OpFillingCpu.h: fillOpRandUniformCpuImpl, fillOpRandNormalCpuImpl, fillOpRandBernoulliCpuImpl", "src/Operation/OpNNLayerCpu.h: dropoutOpCpuImpl"]}
{"id": "C49", "title": "Operator dispatch never selects an implementation registered for another device or dtype", "statement": "The implementation invoked for an operator is the one registered for exactly the device and element type of the call; two different (device, dtype) pairs never collide.", "quantifier": "every registration set, every device/dtype", "why_tests_cant": "All registration histories.", "anchors": ["src/Tensor/Dispatch.h: dispatchKeyToIndex, registerImpl, lookup"]}
{"id": "C50", "title": "Module trees expose every parameter exactly once under a unique path and propagate mode changes", "statement": "namedParameters/namedStates list every own and nested parameter once, under its dotted path; names are unique when sibling names are unique and contain no dot; zeroGrad, train/eval and to reach every nested module.", "quantifier": "every module tree", "why_tests_cant": "All tree shapes and depths.", "anchors": ["src/Module/Module.h"]}
{"id": "C51", "title": "Loss functions and their gradients agree with their definitions", "statement": "mse_loss and nll_loss with reduction none/mean/sum return the documented value, and the gradient they send back is the derivative of that value times the incoming gradient.", "quantifier": "every input, target, reduction and incoming gradient", "why_tests_cant": "Scaling errors are invisible when the incoming gradient is 1.", "anchors": ["src/Operation/OpLossCpu.h", "src/Function/FuncLoss.h"]}
{"id": "C52", "title": "Dropout keeps the expected scale and the same mask is used in forward and backward", "statement": "dropout(p) zeroes each element with probability p, scales survivors by 1/(1-p), is the identity in eval mode, and its gradient uses the same mask and scale.", "quantifier": "every input, p in [0,1), every random mask", "why_tests_cant": "Quantifies over all masks.", "anchors": ["src/Function/FuncNNLayer.h: FuncDropout, FuncSDPAttention", "src/Operation/OpNNLayerCpu.h: dropoutOpCpuImpl, dropoutMaskedOpCpuImpl"]}
{"id": "C53", "title": "A linear layer and its gradient are adjoint", "statement": "linear(x,W,b) = x W^T + b for every leading batch shape, and the gradients it returns for x, W and b are the adjoints of the corresponding linear maps.", "quantifier": "every shape (any number of leading dimensions), every contents", "why_tests_cant": "All shapes; bias gradients with several leading dimensions.", "anchors": ["src/Function/FuncNNLayer.h: FuncLinear"]}
{"id": "C54", "title": "Saved backward data is consumed in the order it was saved", "statement": "Values a forward pass saves for its backward are received by the backward in the order saved, each once; a second backward through an operation that saved data is reported, not silently wrong.", "quantifier": "every sequence of saves", "why_tests_cant": "Order mix-ups with several saved values of the same type.", "anchors": ["src/Tensor/Function.h: AutogradContext"]}
{"id": "C55", "title": "arange and linspace produce the documented values", "statement": "arange(start, stop, step) yields exactly the values start + i*step that lie before stop; linspace(a,b,n) yields n values from a to b inclusive.", "quantifier": "every integer start, stop, step; every n", "why_tests_cant": "Non-dividing steps, negative steps, single points.", "anchors": ["src/Tensor/Tensor.h: arange, linspace", "src/Operation/OpFillingCpu.h: fillOpLinSpaceCpuImpl"]}
{"id": "C56", "title": "layer_norm / rms_norm rows are normalised and their affine part applied", "statement": "layer_norm output rows have mean 0 and variance var/(var+eps) before the affine step, rms_norm rows have mean square ms/(ms+eps); rows do not influence each other; weight and bias are applied per feature.", "quantifier": "every row, eps > 0, weight and bias", "why_tests_cant": "All real rows.", "anchors": ["src/Operation/OpNNLayerCpu.h: normOpCpuImpl"]}
{"id": "C57", "title": "tril / triu keep exactly one side of the chosen diagonal", "statement": "tril(d) keeps element (i,j) iff j <= i+d and zeroes the rest, triu(d) keeps it iff j >= i+d, on every matrix of the batch; tril(d)+triu(d+1) is the identity decomposition.", "quantifier": "every matrix size, batch shape, diagonal", "why_tests_cant": "All sizes and diagonals.", "anchors": ["src/Operation/OpTransformCpu.h: triangleOpCpuImpl"]}
{"id": "C58", "title": "Collective gather delivers its result to the caller's output tensors", "statement": "After allGather completes, the caller's output list holds every rank's input.", "quantifier": "every world size and inputs", "why_tests_cant": "Needs a multi-rank run.", "anchors": ["src/Distributed/BackendNCCL.cpp: allGather"]}
{"id": "C59", "title": "Variances and the mean returned with them", "statement": "var_mean over all elements or over a list of dimensions returns, per output position, the variance of exactly the elements of the group (divided by n, or by n-1 when unbiased) and their mean; both results have the shape that keepdims asks for.", "quantifier": "every shape, set of dimensions, both settings of unbiased and keepdims, every contents", "why_tests_cant": "All ranks, dimension subsets and contents; the second pass must read the mean that belongs to the group of each element.", "anchors": ["src/Operation/OpReduceCpu.h: reduceOpVarMeanCpuImpl, reduceOpVarMeanDimsCpuImpl"]}
{"id": "C60", "title": "Convolution gradients are the adjoints of the convolution", "statement": "The gradients conv2d returns for its input, its weight and its bias are the exact adjoints of the three linear maps the forward pass applies to them: <conv2d(x',w), g> = <x', dx>, <conv2d(x,w'), g> = <w', dw>, and the bias gradient collects every output position of its channel.", "quantifier": "every batch, channel count, image, kernel, stride, padding, contents and upstream gradient", "why_tests_cant": "Numerical gradient checks cover a few sizes only; the index arithmetic differs between forward and backward and must agree for all geometries.", "anchors": ["src/Function/FuncNNLayer.h: FuncConv2D", "src/Operation/OpLinalgCpu.h: im2colOpCpuImpl, col2imOpCpuImpl"]}
{"id": "C61", "title": "Distributed training starts from the same parameters on every rank", "statement": "After a distributed module has been constructed, every rank's parameters equal the root rank's parameters, whatever values they had before.", "quantifier": "every list of parameters, every bucket limit, every rank and every initial values", "why_tests_cant": "Any number of parameters, sizes and bucket limits.", "anchors": ["src/Distributed/Reducer.cpp: broadcastParameters, copyParamsToFlattenedBuffer, copyFlattenedBufferToParams", "src/Distributed/DistributedModule.cpp: DistributedModule"]}
{"id": "C62", "title": "Indexing with tensors of indices reads and writes exactly the named positions", "statement": "For a tensor and a list of Int64 index tensors of one common shape, element (j, r) of the indexed result is the tensor's element at the coordinates named by the indices at j (negative ones counting from the end) followed by r; assignment through the same indices stores the given value (a scalar, or one value per element) at exactly those coordinates, the last one winning when a position is named twice, and leaves every other element alone; reading back gives what was written; a value of the wrong size, an index out of range, index tensors of different sizes and too many indices are rejected; embedding lookup is row selection.", "quantifier": "all shapes, numbers of index tensors, index values (in and out of range, repeated), values and element types", "why_tests_cant": "Every combination of index values is an input; an out-of-range index that lands inside the buffer returns a plausible number.", "anchors": ["src/Operation/OpTransformCpu.h: getSubIndices, index2DCpuImpl, indexAdvanceOpCpuImpl, indexPutAdvanceOpCpuImpl", "src/Function/FuncNNLayer.h: FuncEmbedding"]}
{"id": "C63", "title": "Collectives leave the reduction of exactly the ranks' values in the caller's tensors", "statement": "broadcast leaves the root's values in every rank's tensor; allReduce leaves the sum, mean, product, minimum or maximum over all ranks in every rank's tensor, reduce in the root's only; reduceScatter leaves in rank r's output the reduction of every rank's r-th input. No other tensor of the caller changes, and an invalid root or operation is refused.", "quantifier": "every world size, tensor size, contents, root and operation", "why_tests_cant": "Needs many ranks and all contents.", "anchors": ["src/Distributed/BackendNCCL.cpp: broadcast, allReduce, reduce, reduceScatter, getNcclReduceOp", "src/Distributed/Types.h: ReduceOpType"]}
{"id": "C64", "title": "Element-wise operations between tensors of different element types are converted or refused", "statement": "An element-wise operation or comparison of two tensors of the same element type applies the operation of that type to the elements. If the types differ, the second operand's elements are converted to the first operand's type or the call is refused; its bytes are never reinterpreted and memory beyond it is never read.", "quantifier": "every pair of element types, operation, shape and contents", "why_tests_cant": "There are 36 type pairs times every shape and contents; out-of-range reads are invisible to a test most of the time.", "anchors": ["src/Tensor/TensorImpl.h: dataPtr", "src/Operation/OpElemWiseCpu.h: binaryOpCpuImpl, binaryOpCompareCpuImpl", "src/Tensor/Dispatch.h: getDispatchKey", "src/Tensor/DType.h: dtypeSize", "src/Tensor/Tensor.cpp: copy_"]}
{"id": "C65", "title": "Attention is the softmax-weighted mean of the visible values", "statement": "scaledDotProductAttention returns for every query the mean of the values weighted by the softmax of the scaled inner products (plus mask) over the visible keys. Hidden keys and values, in particular later positions of causal attention, cannot influence a query; the result lies within the range of the visible values; ill-fitting masks and sizes are refused; a dropout probability p drops a weight with probability p.", "quantifier": "every batch shape, number of queries and keys, head size, contents, mask, scale and random draws", "why_tests_cant": "Independence of hidden positions is a statement about all values there; the weights are sums over arbitrarily many keys.", "anchors": ["src/Function/FuncNNLayer.h: FuncSDPAttention", "src/Operation/OpNNLayerCpu.h: softmaxForwardCpuImpl, dropoutOpCpuImpl"]}
{"id": "C66", "title": "Filling and masked filling change exactly the selected elements", "statement": "fill_ sets every element. A masked fill sets exactly the elements where the mask is true and keeps the others; the in-place, out-of-place and output forms agree and a mask or output of another shape is refused. Filling a range changes exactly that range or is refused.", "quantifier": "every shape, contents, mask, value, offset and count", "why_tests_cant": "Needs every mask and every out-of-range offset; a write past the end is usually invisible to a test.", "anchors": ["src/Operation/OpFillingCpu.h: fillOpCpuImpl, fillOpMaskedCpuImplDetail, fillOpMaskedCpuImpl, fillOpMaskedOutCpuImpl, fillOpMaskedInplaceCpuImpl, fillOpOffsetCpuImpl"]}
{"id": "C67", "title": "Comparisons, maximum, minimum, clamp, sign and relu follow the order of the numbers", "statement": "For every pair of elements of an element type for which the operation exists (float32, half, bfloat16, int64), including infinities, signed zeros, subnormals and NaN, and for all broadcastable shapes: ==, !=, <, <=, >, >= give the IEEE answers (NaN unordered, -0 equal to 0); maximum and minimum give the greater and the smaller operand, NaN if an operand is NaN; clamp gives the nearest value between ordered bounds and keeps NaN; sign gives -1, 0 or 1; relu as an operation and relu of the autograd interface give max(x, 0) and agree.", "quantifier": "all shapes, all bit patterns of all element types", "why_tests_cant": "2^64 pairs of float32 patterns alone; NaN, signed zeros and the conversion of 16-bit types are corner cases that sampled tests miss", "anchors": ["src/Operation/OpElemWiseCpu.h: OpCpuEq", "src/Operation/OpElemWiseCpu.h: OpCpuMaximum", "src/Operation/OpElemWiseCpu.h: OpCpuClamp", "src/Operation/OpElemWiseCpu.h: OpCpuSign", "src/Operation/OpElemWiseCpu.h: OpCpuRelu", "src/Function/FuncActivation.h: FuncRelu"]}
{"id": "C68", "title": "backward() gives the derivatives of the whole program", "statement": "After any straight-line program on scalar tensors - leaves, +, -, *, /, pow, sin, cos, reshape, reductions, the in-place operators +=, -=, *=, /=, fill_, with any parts in no-grad mode - r.backward() leaves in the grad() of every leaf that requires grad the derivative of r's value with respect to that leaf, where what was computed in no-grad mode counts as constant.", "quantifier": "every program, every leaf values inside the domain of the operations, every result tensor and every leaf", "why_tests_cant": "gradient checks try a few hand-written expressions; that the recorded functions, saved tensors and accumulation compose to the derivative for every program is a statement about all graphs, and in-place changes interact with what was saved earlier", "anchors": ["src/Tensor/Tensor.cpp: inplaceSet, setRequiresGrad, backward, fill_", "src/Tensor/Function.h: apply, collectTensorInfo, handleOutputTensor, nextFunctions", "src/Function/FuncElemWise.h: FuncMul, FuncDiv, FuncPow", "src/Tensor/AutogradMeta.cpp: backward"]}
{"id": "C69", "title": "Operations make one new tensor and leave the others alone", "statement": "In every program state, with gradients on or off: an operation that returns a tensor makes exactly one new tensor with the right value, which requires grad exactly if gradients are on and an operand requires grad, and changes no existing tensor's value, requires-grad flag or history; an in-place operator and fill_ change only the tensor they are called on.", "quantifier": "every reachable state of a program on scalar tensors, every operation and operands, both grad modes", "why_tests_cant": "sharing between tensors appears only for particular shapes and modes, and its effect shows up later, in another tensor", "anchors": ["src/Tensor/Function.h: apply, handleOutputTensor", "src/Tensor/Tensor.cpp: inplaceSet, setRequiresGrad", "src/Operation/OpTransform.cpp: reshapeOpImpl", "src/Operation/OpReduceCpu.h: reduceOpAllCpuImpl"]}
{"id": "C70", "title": "Element-wise operations on CUDA tensors equal the CPU operations under every schedule", "statement": "For every element-wise operation (unary, binary with broadcasting, ternary, comparisons, in-place, into an output, gradients of unary operations) on CUDA tensors: in whatever order the device runs the threads, no access is out of bounds, the launch ends, the result has the broadcast shape and at every index the value the CPU operation gives, and no other buffer changes; operands that do not broadcast are refused.", "quantifier": "every operation, number of operands, shapes, contents and every interleaving of all threads of the launch", "why_tests_cant": "A test sees a few schedules of one device; races and out-of-range threads at the last block show up only for particular sizes and timings.", "anchors": ["src/Operation/OpElemWiseCuda.cuh: unaryOpKernel, unaryOpInplaceKernel, unaryOpBackwardKernel, binaryOpCudaImpl, binaryOpInplaceCudaImpl, ternaryOpCudaImpl", "src/Tensor/TensorIterator.cuh: scalarKernel, sameShapeKernel, broadcastKernel, forEach", "src/Utils/CUDAUtils.cpp: getKernelGridSize, getKernelLaunchParams"]}
{"id": "C71", "title": "Fills, random fills and dropout on CUDA tensors are right under every schedule", "statement": "Filling a CUDA tensor (constant, range, masked, linspace/arange, random) and dropout write every element of the target and no other location, stay in bounds and end, in whatever order the device runs the threads. Element i of a random fill depends only on the seed, the number of random operations so far and i; seeding again gives the same numbers again. A mask of another shape is refused.", "quantifier": "every shape, contents, mask, seed, generator history and every interleaving of all threads of the launch", "why_tests_cant": "A test sees a few sizes and schedules of one device; the four-elements-per-thread kernels have a tail whose guards matter only for particular sizes.", "anchors": ["src/Operation/OpFillingCuda.cuh: fillOpCudaImpl, fillOpMaskedCudaImpl, fillOpLinSpaceCudaImpl, fillOpRandUniformCudaImpl", "src/Operation/OpNNLayerCuda.cuh: dropoutOpCudaImpl, dropoutMaskedOpCudaImpl", "src/Utils/RandomGenerator.h: RandomGeneratorCUDA"]}
{"id": "C72", "title": "Transforms and indexing of CUDA tensors are right under every schedule", "statement": "permute, transpose, tril/triu, expand, gather, scatter, index_select, repeat_interleave and reading or writing through index tensors give, on a CUDA tensor, the result they give on the CPU: each element of the result is the element of the source that the operation names, nothing else is written, no access is out of bounds, the launch ends, in whatever order the device runs the threads. Invalid dimensions, ranks, counts and index values are refused.", "quantifier": "every shape, contents, dimensions, index tensors, diagonal and every interleaving of all threads of the launch", "why_tests_cant": "A test sees a few shapes and schedules of one device; the tiled transpose exchanges data between threads across a barrier, and writes through an index with repeated positions are ordered by the schedule alone.", "anchors": ["src/Operation/OpTransformCuda.cuh: permuteOpCudaImpl, transposeOpCudaImpl, transpose2dOpCudaImpl, triangleOpCudaImpl, gatherOpCudaImpl, scatterOpInplaceCudaImpl, expandOpCudaImpl, indexSelectOpCudaImpl, repeatInterleaveOpCudaImpl, indexAdvanceOpCudaImpl, indexPutAdvanceOpCudaImpl"]}
{"id": "C73", "title": "Sums of CUDA tensors are right under every schedule", "statement": "The sum of all elements of a CUDA tensor, and the sums over one or several dimensions, are the sums the CPU gives, kept dimensions or not, whatever the size: in whatever order the device runs the threads, blocks and warps of the launches, no access is out of bounds, no thread waits for ever, and only the result and scratch buffers change. Invalid dimensions are refused; the sum of a scalar is the scalar.", "quantifier": "every shape, contents, dimensions, keepDims and every interleaving of all threads of each launch", "why_tests_cant": "A test sees one schedule of one device at a few sizes; the merge exchanges data by warp shuffles and shared memory and works in place from its second round on, so that an order of the blocks no test run takes can change the result.", "anchors": ["src/Operation/OpReduceCuda.cuh: reduceOpSumCudaImpl, reduceOpSumDimCudaImpl, reduceOpSumDimsCudaImpl, ReducerCuda, kReduceMerge, kReduceMultiDimSum"]}
{"id": "C74", "title": "Means and variances of CUDA tensors are right under every schedule", "statement": "The mean and the variance, biased or not, of all elements of a CUDA tensor, and those over one or several dimensions, kept or not, are the textbook ones (up to rounding), for every tensor whose sum the device computes right; the mean returned along with the variance is the mean. In whatever order the device runs the threads, blocks and warps of the launches, no access is out of bounds and only the result and scratch buffers change. Invalid dimensions are refused; a scalar is its own mean and has variance 0.", "quantifier": "every shape, contents, dimensions, unbiased, keepDims and every interleaving of all threads of each launch", "why_tests_cant": "A test sees one schedule of one device at a few sizes; a variance is ten launches that hand scratch buffers to one another, each under its own schedule.", "anchors": ["src/Operation/OpReduceCuda.cuh: reduceOpMeanCudaImpl, reduceOpMeanDimsCudaImpl, reduceOpVarMeanCudaImpl, reduceOpVarMeanDimsCudaImpl, kSquaredDiff, kReduceMultiDimVar, cudaGetReduceDstIndex"]}
{"id": "C75", "title": "Minima and maxima of CUDA tensors are attained and in place, under every schedule", "statement": "max and min of all elements of a CUDA tensor, argmax and argmin, and max and min over one dimension with their indices, kept or not, return an element of the reduced ones that none exceeds, and a position where it occurs, the first one as on the CPU. In whatever order the device runs the threads, blocks and warps of the launches, no access is out of bounds and only the result and scratch buffers change. Invalid dimensions are refused; a scalar is its own extreme, at index 0.", "quantifier": "every shape, contents, total order, dimension, keepDims and every interleaving of all threads of each launch", "why_tests_cant": "A test sees one schedule of one device; ties, the padding of the last warps and elements equal to the initial value need particular inputs.", "anchors": ["src/Operation/OpReduceCuda.cuh: OpCudaReduceMin, OpCudaReduceMax, cudaWarpReduceIdx, kReduceIdxMerge, kReduceIdxDimFirstOrLast, kReduceIdxDim, reduceIdxMerge, reduceIdxDim, reduceOpArgMinMaxCudaImpl, reduceOpMinMaxDimCudaImpl", "src/Operation/OpReduceCuda.cu"]}
{"id": "C76", "title": "Softmax of CUDA tensors and its gradient are the formulas, under every schedule", "statement": "softmax and log-softmax of a CUDA tensor over one of its dimensions return at each index the exponential of the element over the sum of the exponentials along the dimension, or its logarithm, the numbers the CPU returns, and never overflow. Their backward kernels leave the derivative of the weighted sum of the results. In whatever order the device runs the threads, blocks and warps, no access is out of bounds, and nothing but the result and the scratch buffer changes. Invalid dimensions and gradients of another shape are refused.", "quantifier": "every shape, contents, dimension (positive or negative), line length and every interleaving of all threads of each launch", "why_tests_cant": "A test sees one schedule of one device; the block reductions share one array between their uses, and lines are handled by three different kernels depending on their length.", "anchors": ["src/Operation/OpNNLayerCuda.cuh: cudaBlockReduce, kSoftmaxForward, kSoftmaxForwardLargeDim, kSoftmaxBackward, kSoftmaxBackwardLarge, softmaxForwardCudaImpl, softmaxBackwardCudaImpl", "src/Utils/MathUtils.h: nextPow2"]}
{"id": "C77", "title": "Layer norm and RMS norm of CUDA tensors are the formulas, under every schedule", "statement": "layerNorm and rmsNorm of a CUDA tensor over its last dimension give, for every row length, every number of rows the device accepts and whatever the order in which the device runs threads, warps and blocks, the numbers of the definition (and of the CPU): (x - mean) / sqrt(variance + eps), resp. x / sqrt(mean square + eps), times the weight and plus the bias of the column when given; every execution ends without an undefined access and changes nothing else; a normalised shape other than the last dimension is refused.", "quantifier": "all shapes, elements (real numbers), eps, optional weights and biases, initial memories, and all schedules of the launches", "why_tests_cant": "the launches' interleavings cannot be enumerated or forced by a test: the race in layer norm shows only when one warp runs ahead of another between two reductions", "anchors": ["src/Operation/OpNNLayerCuda.cuh: cudaBlockReduce, kNormSmall, kNormLarge, normOpCudaImpl"]}
{"id": "C78", "title": "On the GPU, rotary embeddings are those of the CPU whatever the schedule", "statement": "Building a rotary table and applying it to a [batch, heads, positions, size] tensor, on a CUDA device, give the numbers of the CPU under every interleaving of the threads of their kernels: the cosines and sines of position times frequency (with or without frequency scaling), and every pair of elements rotated by those of its position. Nothing but the result and the scratch storage changes; odd head sizes and other ranks are refused; a position outside the table is an error.", "quantifier": "every head size, context length, base and scaling, every batch, head, sequence and offset size, all real inputs, every schedule", "why_tests_cant": "A schedule-dependent fault needs the one interleaving that shows it, and no run visits all of them; the sizes are unbounded.", "anchors": ["src/Operation/OpNNLayerCuda.cuh: kRopeComputeInvFreq, kRopeApplyScaling, kRopePrecomputeCosSin, kRopeApply, ropeInitOpCudaImpl, ropeApplyOpCudaImpl", "src/Operation/OpNNLayerCpu.h: ropeInitOpCpuImpl, ropeApplyOpCpuImpl"]}
{"id": "C79", "title": "On the GPU, unfolding images into windows and folding them back are those of the CPU whatever the schedule", "statement": "im2col and col2im of CUDA tensors give, under every interleaving of the threads of their kernels, the matrices and images of the CPU: entry (window, cell) of im2col is the pixel of the image under that cell, or 0 outside the image, and pixel (y, x) of col2im is the sum of all the entries whose cell lies on it. Nothing else in device memory changes; a tensor [C,H,W] is a batch of one; other ranks are refused.", "quantifier": "every batch, channel, image, kernel, stride and padding size for which the kernel fits the padded image, all elements of a commutative ring, every schedule", "why_tests_cant": "A schedule-dependent fault needs the one interleaving that shows it; boundary faults of the window arithmetic show only for some combination of the eight sizes.", "anchors": ["src/Operation/OpLinalgCuda.cuh: kIm2Col, kCol2Im, im2colOpCudaImpl, col2imOpCudaImpl", "src/Operation/OpLinalgCpu.h: im2colOpCpuImpl, col2imOpCpuImpl"]}
{"id": "C80", "title": "On the GPU, matrix multiplication gives the products of the CPU", "statement": "matmul of CUDA tensors, with either operand transposed, gives at (batch, i, j) the sum over p of a(batch, i, p) times b(batch, p, j), where batch dimensions of size 1 or missing are repeated, and equals what matmul gives for the same tensors on the CPU; vectors are rows on the left and columns on the right; scalars, different inner sizes and batches that do not broadcast are refused.", "quantifier": "all matrix sizes, both transposition flags, all batch shapes, all elements of a commutative ring", "why_tests_cant": "Storage by columns against storage by rows, two flags and three gemm routines give many combinations of which tests touch a few square ones; sizes beyond 32 bits are never tested.", "anchors": ["src/Operation/OpLinalg.cpp: matmulOpImpl, matmulOpImplDetail", "src/Operation/OpLinalgCuda.cuh: gemmCudaF32Impl, gemmStridedBatchedCudaF32Impl, gemmBatchedCudaF32Impl"]}
{"id": "C81", "title": "The fused gate (siluMul) is the product of the two halves of every line, the first passed through silu, on both devices", "statement": "siluMul of a tensor whose last dimension has 2h elements gives a tensor whose last dimension has h: element j of a line is x times logistic(x) times y, where x is element j and y element h + j of that line of the input. On the GPU this holds under every interleaving of the threads, nothing else in device memory changes, and the result is that of the CPU. An odd last dimension is refused.", "quantifier": "every shape and every real content, every schedule", "why_tests_cant": "A pairing mistake shows only for shapes and values that tell the two elements apart; a schedule-dependent fault needs the interleaving that shows it.", "anchors": ["src/Operation/OpFusedCpu.h: siluMulOpCpuImpl", "src/Operation/OpFusedCuda.cuh: kSiluMul, siluMulOpCudaImpl", "src/Function/FuncFused.h: FuncSiluMul"]}
{"id": "C82", "title": "The MNIST data set gives the images and labels of its files", "statement": "Opening an MNIST data set over an image file and a label file in the idx format gives a set whose size is the smaller of the two counts and whose item i is image i as a 1 x height x width tensor, each pixel divided by 255 and then put through the transform, together with label i; a Compose of normalizations applies them pixel by pixel, in order. A file with another magic number is rejected, with a missing file the set is empty, and a damaged file is never taken for a good one.", "quantifier": "every number, size and content of images and labels, every trailing byte, every nesting of transforms", "why_tests_cant": "Tests read the one pair of files there is; the decoding has to be right for every size and count, and damaged files come in too many forms to try.", "anchors": ["src/Data/DatasetMNIST.cpp: loadImages", "src/Data/DatasetMNIST.cpp: loadLabels", "src/Data/DatasetMNIST.cpp: getItem", "src/Data/DatasetMNIST.cpp: toInt32", "src/Data/Transform.h: Compose", "src/Data/Transform.h: Normalize"]}
{"id": "C83", "title": "initParameters gives every parameter of a model its documented range, reproducibly", "statement": "After initParameters on any tree of modules, every weight and bias of every Linear and Conv2D layer is a uniform draw stretched over exactly [-1/sqrt(fan_in), 1/sqrt(fan_in)), LayerNorm and RMSNorm weights are 1 and LayerNorm biases 0, embeddings are standard normal draws, every parameter has the shape of its layer, and no parameter is left out. With the same seed the parameters are the same whatever happened before, and different parameters come from different draws.", "quantifier": "every tree of modules, every layer size, every generator and every state of it", "why_tests_cant": "Tests look at a few layers and shapes; a range is a statement about every draw, and reproducibility about every earlier history.", "anchors": ["src/Initializer.cpp: kaimingUniform", "src/Initializer.cpp: calculateFan", "src/Initializer.cpp: calculateGain", "src/Module/Basic.cpp: resetParameters", "src/Module/Norm.cpp: resetParameters", "src/Module/Module.h: initParameters"]}
{"id": "C84", "title": "Sort, topk and running sums of CUDA tensors", "statement": "Sorting a CUDA tensor along a dimension returns every row in order together with the position each element came from, and keeps equal elements in the order they had, in both directions; topk returns in order the k first elements of that order, from different positions, none of the others beating them; cumsum returns at each position the sum of the elements of the row up to it. None of these changes another buffer, and a dimension or a k out of range is refused.", "quantifier": "every shape, dimension, direction, k and content, every sorting routine that keeps Thrust's promises, every schedule of the threads", "why_tests_cant": "Rows interleave in memory and are sorted in place one after the other, and the running sums of different rows are made by concurrent threads; tests see a few shapes and one schedule.", "anchors": ["src/Operation/OpSamplingCuda.cu: sortOpCudaImpl", "src/Operation/OpSamplingCuda.cu: topkOpCudaImpl", "src/Operation/OpSamplingCuda.cu: cumsumOpCudaImpl"]}
{"id": "C85", "title": "backward() of a scalar computed by a whole tensor program leaves the true gradient in every leaf", "statement": "Take leaf tensors of any shapes and a program that applies relu, sin, cos, sum, reshape (and its relatives), softmax, log-softmax, dropout, add, sub, mul, div (with broadcasting), linear, conv2d, the squared error and the negative log likelihood to earlier tensors, ending in a scalar tensor that requires grad. Running it succeeds; backward() on the result succeeds; afterwards grad() of every leaf that requires grad has the shape of that leaf (or is absent, which stands for zero), and its element j is the derivative of the result with respect to element j of that leaf; a leaf that does not require grad has no gradient.", "quantifier": "every program of any length over these functions, all shapes, all element values where the program is differentiable, all graphs with tensors used any number of times", "why_tests_cant": "Tests compare a few small networks with stored numbers; that local rules, recording, accumulation and order compose to the derivative of the whole program has to hold for every program.", "anchors": ["src/Tensor/Function.h: apply", "src/Tensor/AutogradMeta.cpp: backward, addGrad", "src/Tensor/Tensor.cpp: backward", "src/Function/FuncNNLayer.h: FuncLinear", "src/Function/FuncNNLayer.h: FuncConv2D", "src/Function/FuncElemWise.h: FuncMul", "src/Function/FuncLoss.h: FuncNLLLoss"]}
{"id": "C86", "title": "A small enough step of SGD lowers the loss", "statement": "Take a program on tensors as in C85 whose result is the loss, run it, call backward() on the loss and then step() of SGD without momentum and weight decay on the leaves that require grad. If some element of some gradient is not 0, there is a bound such that for every smaller positive learning rate running the program again gives a strictly smaller loss; if all gradients are 0, step() changes nothing. Parameters keep their shapes.", "quantifier": "every program over the functions of C85, all shapes, all parameter values where the program is differentiable, all learning rates below the bound", "why_tests_cant": "Tests watch a loss go down on one data set; that the step is a descent direction for every program and every point is a statement about all of them.", "anchors": ["src/Optimizer.cpp: SGD::doStep", "src/Optimizer.cpp: getDecayedGrad", "src/Tensor/Tensor.cpp: backward", "src/Tensor/AutogradMeta.cpp: backward"]}
{"id": "C87", "title": "Data-parallel training equals training in one process with the mean gradient", "statement": "Wrap a module in DistributedModule on every rank, build any of the optimizers on its parameters and train: in each iteration optionally setLr() and zeroGrad(), then forward, backward and step(). After any number of iterations every rank holds the same parameters and gradients, and they are those of a single process that starts from the root's parameters and in every iteration receives the mean over the ranks of the gradients the ranks compute at the current parameters. This also holds when gradients are accumulated over iterations.", "quantifier": "all numbers of ranks and iterations, all parameter sizes and bucket limits, all initial values on each rank, all optimizers and hyper-parameters, all local gradients as functions of the parameters, all orders in which gradients become ready", "why_tests_cant": "Tests run two ranks for a few batches on one network and compare approximately; that replicas never drift apart is a statement about every history.", "anchors": ["src/Distributed/DistributedModule.cpp: DistributedModule, forward", "src/Distributed/Reducer.cpp: onGradReady, checkAllBucketsReady, broadcastParameters, copyFlattenedBufferToGrads", "src/Optimizer.cpp: doStep, zeroGrad", "src/Tensor/AutogradMeta.cpp: addGrad"]}
{"id": "C88", "title": "Arithmetic on half and bfloat16 is correctly rounded", "statement": "For every pair of half or of bfloat16 values, including subnormals, signed zeros, infinities and NaN, a + b, a - b, a * b and a / b are the IEEE results of that 16-bit format: the exact result rounded once to nearest even, with gradual underflow and overflow to infinity. -a and abs(a) are exact and sqrt(a) is correctly rounded. The same holds for every element of a sum, difference, product or quotient of two tensors of these types, for all broadcastable shapes.", "quantifier": "all pairs of 16-bit words of both types, both as single values and as elements of tensors of any broadcastable shapes", "why_tests_cant": "There are 2^32 pairs per operation and type; the operators compute in float32 and round a second time, which is only harmless because of the precisions involved, and for bfloat16 products only by an extra argument at the underflow limit", "anchors": ["src/Utils/Half.h: operator+, operator-, operator*, operator/, operator float", "src/Utils/BFloat16.h: operator+, operator-, operator*, operator/, operator float", "src/Operation/OpElemWiseCpu.h: OpCpuAdd, OpCpuSub, OpCpuMul, OpCpuDiv, OpCpuNeg, OpCpuAbs, OpCpuSqrt"]}
{"id": "C89", "title": "Integer operands, comparisons and limits of the 16-bit types follow their numbers", "statement": "An int or int64 operand of an arithmetic operator on half or bfloat16 is converted with a single rounding to nearest even. >, <, >=, <= and == on two variables are the order and equality of the numbers (NaN unordered, 0 equal to -0). std::numeric_limits gives the least normal, greatest, lowest and least positive number, the distance from 1 to the next number, infinity, and quiet and signalling NaNs of the format.", "quantifier": "all integers, all pairs of 16-bit words of both types", "why_tests_cant": "Tests try a few integers and values; a double rounding shows for a few integers in 2^16 only, and extremality of the limits speaks about all words", "anchors": ["src/Utils/Half.h: operator==, operator!=, operator>, operator<=, numeric_limits, denorm_min", "src/Utils/BFloat16.h: operator==, operator!=, operator>, operator<=, numeric_limits, signaling_NaN"]}
{"id": "C90", "title": "Collectives that run beside the computation give the results of running one by one", "statement": "Collective calls return before they are over and run on a stream of their own, on every rank at its own pace. If every rank calls wait() on the returned work before it writes a buffer of the collective or reads its output, then under every schedule of the processes and of the streams each rank's tensors and every value it reads are those of a run in which each call is over on all ranks before the next begins. If all ranks also make the same collective calls in the same order, no schedule ever gets stuck.", "quantifier": "every number of ranks, every script of kernels, collectives, waits and reads, every schedule of hosts, compute streams and communication streams", "why_tests_cant": "A test sees one schedule of one machine; a missing dependency between the streams shows only under some timings", "anchors": ["src/Distributed/BackendNCCL.h: collective", "src/Distributed/BackendNCCL.cpp: reduceScatter", "src/Distributed/WorkNCCL.cpp: synchronize, wait", "src/Utils/CUDAUtils.cpp: waitStream", "src/Utils/CUDAUtils.h: record, block"]}
{"id": "C91", "title": "Overlapping the gradient reduction with the backward pass does not change training", "statement": "Processes that train with the distributed wrapper, in which every parameter gets its gradient once per iteration, in any order, run as if each call were over before the next began: under every schedule nothing gets stuck, every process can reach the end, and gradients, parameters and all values read are the same. Each bucket is reduced once in every iteration.", "quantifier": "every number of processes, buckets, parameters and iterations, every order of the gradient hooks on each process, every kernel in between, every schedule of hosts and streams", "why_tests_cant": "A test sees one schedule and one order of hooks; a copy that starts before the reduction has ended goes wrong only under some timings", "anchors": ["src/Distributed/Reducer.cpp: onGradReady, reduceBucket, checkAllBucketsReady, prepareForBackward", "src/Distributed/WorkNCCL.cpp: wait"]}
{"id": "C92", "title": "A barrier lets no rank pass before all ranks have reached it", "statement": "When barrier() returns on one rank, every rank has called it; so does wait() on the work of any collective: when it returns, every rank has started that collective.", "quantifier": "every number of ranks, every script before and after the barrier, every schedule", "why_tests_cant": "Whether a rank runs ahead depends on the timing of other processes and devices", "anchors": ["src/Distributed/BackendNCCL.cpp: barrier", "src/Distributed/DistributedProcessGroup.h: barrier", "src/Distributed/WorkNCCL.cpp: wait"]}
{"id": "C93", "title": "A work handle tells the truth about its operation", "statement": "isCompleted() is true exactly when the operation is over. wait(timeout) returns true if the operation ends within the timeout after the call and false otherwise, and after a timeout isSuccess() stays false. wait() without a timeout returns only when the operation is over.", "quantifier": "every time at which the operation ends (or never), every timeout, every timing of the polls, every sequence of calls on the handle", "why_tests_cant": "The answers depend on when the device reaches an event relative to the calls; tests cannot set these times", "anchors": ["src/Distributed/Work.h: isCompleted, isSuccess, finish", "src/Distributed/WorkNCCL.cpp: isCompleted, wait, checkTimeout"]}
{"id": "C94", "title": "Setting up a process group makes the group that was asked for, or returns false and changes nothing", "statement": "initProcessGroup with env://, tcp://host[:port] or file://path makes a group of exactly the given rank and size that meets at the given place, with the given timeout; explicit arguments win over the environment. Every other string, a missing rank or size, a rank outside the group, an impossible port or an unsupported backend makes it return false and leaves everything as it was; so does a second call before the group is destroyed. barrier() works in every such group.", "quantifier": "every init string, host name, port, path, environment, rank, size, timeout and backend", "why_tests_cant": "Strings, environments and numbers are unbounded; tests try a few of the well-formed ones", "anchors": ["src/Distributed/DistributedProcessGroup.cpp: initProcessGroup, parseInitString, createStore", "src/Distributed/DistributedProcessGroup.h: destroyProcessGroup, barrier", "src/Distributed/ProcessGroup.cpp: setTimeout, setBackend, getDefaultBackend", "src/Distributed/BackendNCCL.cpp: barrier"]}
{"id": "C95", "title": "All ranks of a group get the same communicators", "statement": "Whatever the timing of the ranks, the n-th communicator one rank makes is the n-th communicator of every other rank, and no communicator serves twice. If all ranks use equally many devices nobody waits for ever: every schedule ends with every rank having a communicator for each device it uses. This holds with each of the two stores.", "quantifier": "every number of ranks, every list of devices each rank uses in turn, every schedule of the ranks and the store", "why_tests_cant": "The ids travel through a store between processes; which process comes first differs from run to run", "anchors": ["src/Distributed/BackendNCCL.cpp: getNCCLComm", "src/Distributed/NCCLUtils.h: create, waitReady", "src/Distributed/FileStore.cpp: set, get", "src/Distributed/BackendNCCL.h: setError"]}
{"id": "C96", "title": "Floating-point sums, dot products, matrix products, running sums and means have known error bounds", "statement": "For float, Half and BFloat16 tensors, every element of sum, sum over dimensions, and cumsum is finite only if all its terms are, and then differs from the exact sum of its n terms by at most ((1+u)^(n-1) - 1) times the sum of their absolute values, where u is half a unit of the type's precision; dot products and matrix products of length n by at most ((1+u)^n - 1) times the sum of the absolute products plus underflow; means of up to 16384 elements by at most ((1+u)^(n+2) - 1) times the mean of the absolute values plus underflow. They are finite if the sizes do not add up to the largest number. Whole numbers whose sizes add up to at most 2^precision are added exactly.", "quantifier": "all shapes, dimensions, keepDims, transpositions, all words of the three types including infinities, NaN and subnormal numbers", "why_tests_cant": "The worst cases of rounding are spread over all inputs and lengths; tests compare a few random tensors with a tolerance", "anchors": ["src/Operation/OpReduceCpu.h: reduceOpSumDimsCpuImpl, reduceOpSumCpuImpl, reduceOpMeanCpuImpl, reduceOpMeanDimsCpuImpl", "src/Operation/OpLinalgCpu.h: dotOpCpuImpl, gemmCpuImpl", "src/Operation/OpSamplingCpu.h: cumsumOpCpuImpl", "src/Utils/Half.h: operator+, operator*", "src/Utils/BFloat16.h: operator+, operator*"]}
{"id": "C97", "title": "On a CUDA device multinomial draws valid categories, whatever the schedule of the threads", "statement": "multinomial of a 1-d or 2-d CUDA tensor returns, for every row, categories of positive weight, each the one in whose share of the total weight its random number falls; without replacement the categories of a row are pairwise distinct. It rejects rows with nothing left to draw and tensors of other rank. For all weights, NaN and infinities included, no schedule of the threads races or leaves the buffers, and every returned index is that of a category.", "quantifier": "every weight tensor, number of samples, random outcome, order of the additions of the cumulated sum, and schedule of the threads", "why_tests_cant": "Schedules, random outcomes at the ends of the shares and rounding of the sums cannot be enumerated by tests", "anchors": ["src/Operation/OpSamplingCuda.cu: kPrepareProbabilities, kMultinomialWithReplacement, kMultinomialNoReplacement, multinomialOpCudaImpl"]}
{"id": "C98", "title": "Dropping tensors never breaks or changes a backward pass, and nothing leaks", "statement": "The user may drop, copy and assign tensor variables at any time. v.backward() still runs exactly the operations that v was computed from, each once and consumers before producers, passes the gradients between them, and gives gradients to exactly the held tensors that v was computed from. An operation without derivative, or a second pass through one whose saved data is gone, stops the program instead of giving wrong gradients. Autograd objects exist exactly as long as a held variable needs them; when the last variable is gone, all are freed.", "quantifier": "every program that makes, copies, drops and combines tensors, switches requiresGrad and calls backward, of any length", "why_tests_cant": "Which objects are alive depends on the whole history of the program; tests hold their tensors until the end", "anchors": ["src/Tensor/AutogradMeta.cpp: backward, buildBackwardGraph", "src/Tensor/AutogradMeta.h: backwardGraph_", "src/Tensor/Function.h: apply, collectTensorInfo, handleOutputTensor, nextFunctions, weakOwner", "src/Tensor/Tensor.cpp: setRequiresGrad, initAutogradMeta, backwardImpl", "src/Operation/OpReduceCpu.h: reduceOpAllCpuImpl"]}
{"id": "C99", "title": "Losses of CUDA tensors are the losses of the CPU, under every schedule of the GPU", "statement": "For tensors on a GPU, mseLoss is the squared differences of input and broadcast target, their mean or their sum, and nllLoss is minus the entry of each row that the target names, its mean or its sum; their backward passes give the gradients. Whatever order the GPU's threads run in, the result is this one and no other tensor changes. Shapes that do not broadcast and targets that are not vectors are refused.", "quantifier": "all shapes, values, targets, incoming gradients, reductions, and all schedules of all kernels launched", "why_tests_cant": "A test sees one schedule on one GPU; several kernels with shared buffers are launched per loss", "anchors": ["src/Operation/OpLossCuda.cuh: mseLossOpCudaImpl, mseLossOpBackwardCudaImpl, nllLossOpCudaImpl, nllLossOpBackwardCudaImpl"]}
{"id": "C100", "title": "A TCP store's server keeps clients apart, starts when its workers are there, and can be destroyed", "statement": "A store constructed without an error answers calls, and failures are reported. The wait for the workers returns true only when so many are registered, and is not missed when they are. Each connected client is served by one thread that takes requests from no other client; the server closes no connection that is in use and no other file of the program; descriptors do not leak. A store can be destroyed at any time.", "quantifier": "all interleavings of clients connecting, sending, closing and resetting with the accept loop, the monitor, the client threads and the rest of the process; all failures of system calls at construction", "why_tests_cant": "Descriptor reuse, lost wake-ups and threads outliving the object show only under particular interleavings", "anchors": ["src/Distributed/TCPStore.cpp: TCPStore, connect, waitForWorkers, handleWorkerRegister, handleWorkerUnregister, serverLoop, handleClientInThread, cleanupDisconnectedClients, isSocketConnected, startClientMonitoring, shutdownAllThreads"]}
{"id": "C101", "title": "Converting a tensor to another element type converts its numbers", "statement": "to(type), toList, item and fill_ with a number of another type give every element's number in the new type: itself if the type has it, otherwise the nearest floating-point number (ties to even) or the number without its fraction; for Bool whether it is not 0. Converting to a type that has all the numbers and back changes nothing; order and signs are kept. Numbers an integer type does not have are refused. Gradients flow through a conversion as through any operation.", "quantifier": "all element types, shapes and elements, with infinities, zeros of both signs and NaN", "why_tests_cant": "There are 30 pairs of types with up to 2^64 elements each; rounding twice, overflow and truth show only for particular numbers", "anchors": ["src/Tensor/Tensor.cpp: to", "src/Tensor/Tensor.h: toList, item", "src/Operation/OpTransformCpu.cpp: dtypeCastCpuKernel, dtypeCastOpCpuImpl", "src/Tensor/Scalar.h: to"]}
{"id": "C102", "title": "Softmax of floating-point numbers is a distribution up to rounding", "statement": "softmax along a dimension of a float, Half or BFloat16 tensor gives for every line of numbers and minus infinities with at least one number: numbers from 0 to 1, exactly 0 for minus infinity, in the order of the elements, never 0 for the largest, adding up to 1 and equal to the exact softmax up to rounding. logSoftmax gives numbers that are not positive, in the order of the elements. A line with a NaN or a plus infinity, or of minus infinities only, gives NaN throughout. A dimension the tensor does not have is refused.", "quantifier": "all shapes, dimensions and elements (with infinities, subnormals and NaN) of the three types, and all exponential and logarithm functions with the stated accuracy", "why_tests_cant": "Overflow, underflow and stagnation of the running sum show only for particular numbers and line lengths; a test compares a few lines with a tolerance", "anchors": ["src/Operation/OpNNLayerCpu.h: softmaxForwardCpuImpl, softmaxOpCpuImpl, logSoftmaxOpCpuImpl", "src/Utils/Half.h: Half", "src/Utils/BFloat16.h: BFloat16"]}
{"id": "C103", "title": "What is printed tells what the tensor is", "statement": "print writes one line block to the log for a tensor: the tag, shape, device, type, flags and elements, whole numbers in decimal and others rounded to six decimals, all of them when asked for in full or when there are at most sixteen, and the first and last eight otherwise. Two tensors with the same output have the same shape, device, type, flags and shown elements. Lines logged by several threads come out whole, once per call and in each thread's order, errors on stderr, and no thread waits for ever.", "quantifier": "all tensors, tags and both modes; all numbers of threads, calls and interleavings", "why_tests_cant": "A test prints a few tensors from one thread; ambiguity, truncation and interleaving concern all pairs of tensors and all schedules", "anchors": ["src/Tensor/TensorPrinter.cpp: printArray, printOptions, printTensorImpl, print", "src/Utils/Logger.cpp: Logger::log", "src/Utils/Logger.h: MAX_LOG_LENGTH"]}
{"id": "C104", "title": "Strings in the store come back as they were set", "statement": "A string that is set under a key of the store is what getString gives until the key is changed, whatever characters it contains, null characters and characters outside ASCII included. However several clients interleave, a string read under a key that is only set to strings is one that some client has set.", "quantifier": "all strings, keys, numbers of clients and interleavings of their operations", "why_tests_cant": "A test sets a few ASCII strings with one client", "anchors": ["src/Distributed/Store.cpp: Store::set, Store::getString"]}
