{"id": "C01", "title": "Row-major layout of a tensor is a bijection", "statement": "For every shape without negative dimensions, the default strides computed for constants (and for OMTensors created through omTensorCreate) send the valid multi-indices one-to-one onto the buffer positions 0..numElements-1, in row-major order; no valid index reads outside the buffer and no two valid indices of dimensions > 1 share a cell.", "quantifier": "all shapes of all ranks, all valid indices", "why_tests_cant": "Tests try a handful of shapes and values; the claim ranges over every rank, shape and value.", "anchors": ["src/Dialect/ONNX/ElementsAttr/Strides.cpp:getDefaultStrides,getStridesPosition", "src/Runtime/OMTensor.inc:omTensorCreate,computeElemOffset"]}
{"id": "C02", "title": "Flat index / multi-index round trip", "statement": "Unflattening a flat index below the number of elements gives a valid multi-index whose row-major position is that flat index again, and conversely.", "quantifier": "all shapes with positive dimensions, all flat indices in range", "why_tests_cant": "Tests try a handful of shapes and values; the claim ranges over every rank, shape and value.", "anchors": ["src/Dialect/ONNX/ElementsAttr/Strides.cpp:unflattenIndex"]}
{"id": "C03", "title": "Strided iteration visits every element once, in order, at the right offsets", "statement": "Iterating over a shape with any number of stride vectors (zero, negative, anything) yields exactly numElements steps; step k carries flat index k, the k-th multi-index in row-major order, and for each stride vector the exact offset sum(index*stride).", "quantifier": "all shapes, all lists of stride vectors, every step", "why_tests_cant": "The incremental odometer with rewind must be right at every carry of every rank; no finite set of shapes covers it.", "anchors": ["src/Dialect/ONNX/ElementsAttr/StridesRange.hpp.inc:StridesIterator::operator++", "src/Dialect/ONNX/ElementsAttr/StridesRange.hpp:StridesRange"]}
{"id": "C04", "title": "Zero-copy reshape of a constant never changes its elements", "statement": "Whenever the compiler reshapes a strided constant by only recomputing strides, reading the reshaped constant in row-major order yields the same element sequence as the original, and no assertion fires on the way.", "quantifier": "all shapes, all legal strides, all target shapes with the same number of elements", "why_tests_cant": "Mixed broadcast / transposed / contiguous stride patterns are unbounded in rank.", "anchors": ["src/Dialect/ONNX/ElementsAttr/Strides.cpp:reshapeStrides,areStridesContiguous", "src/Dialect/ONNX/ElementsAttr/ElementsAttrBuilder.cpp:reshape"]}
{"id": "C05", "title": "Materialising a strided constant preserves its elements", "statement": "Copying a strided buffer into a dense row-major buffer puts at each flat position exactly the element the strided view had at the corresponding multi-index.", "quantifier": "all shapes, strides and buffers", "why_tests_cant": "Tests try a handful of shapes and values; the claim ranges over every rank, shape and value.", "anchors": ["src/Dialect/ONNX/ElementsAttr/Strides.cpp:restrideArray", "src/Dialect/ONNX/ElementsAttr/DisposableElementsAttr.cpp:readWideNums"]}
{"id": "C06", "title": "Folded Transpose", "statement": "Folding a Transpose of a constant yields the tensor whose element at index j is the input's element at the un-permuted index, for every permutation; transposing by a permutation and then by its inverse gives the original back.", "quantifier": "all ranks, permutations, shapes, strided inputs", "why_tests_cant": "Tests try a handful of shapes and values; the claim ranges over every rank, shape and value.", "anchors": ["src/Dialect/ONNX/ElementsAttr/ElementsAttrBuilder.cpp:transpose", "src/Dialect/ONNX/ElementsAttr/Strides.cpp:transposeDims,untransposeDims"]}
{"id": "C07", "title": "Folded Expand / broadcasting of constants", "statement": "Expanding a constant to a broadcast-compatible shape reads, at each output index, the input element selected by NumPy broadcasting.", "quantifier": "all shapes and compatible target shapes", "why_tests_cant": "Tests try a handful of shapes and values; the claim ranges over every rank, shape and value.", "anchors": ["src/Dialect/ONNX/ElementsAttr/ElementsAttrBuilder.cpp:expand", "src/Dialect/ONNX/ElementsAttr/Strides.cpp:expandStrides"]}
{"id": "C08", "title": "Folded elementwise binary ops and Where", "statement": "Folding a binary elementwise op or Where over constants gives at each output index the op applied to the broadcast operands, irrespective of how the operands are stored (splat, transposed, broadcast, dense).", "quantifier": "all operand shapes, strides, contents, and all element functions", "why_tests_cant": "Tests try a handful of shapes and values; the claim ranges over every rank, shape and value.", "anchors": ["src/Dialect/ONNX/ElementsAttr/ElementsAttrBuilder.cpp:combine,where"]}
{"id": "C09", "title": "Folded Concat and Split are inverse", "statement": "Folding Concat places each input's elements in its own band along the axis; Split cuts bands along the axis; splitting a concatenation with the same sizes returns the inputs.", "quantifier": "all axes, shapes, numbers of inputs and sizes", "why_tests_cant": "Tests try a handful of shapes and values; the claim ranges over every rank, shape and value.", "anchors": ["src/Dialect/ONNX/ElementsAttr/ElementsAttrBuilder.cpp:split,concat", "src/Dialect/ONNX/Transforms/ConstProp.cpp:ConstPropSplit"]}
{"id": "C10", "title": "Folded Slice equals the ONNX slice", "statement": "For each axis, the start/end/step normalisation of Slice selects exactly the elements start, start+step, ... that ONNX (NumPy) selects, the output dimension counts them, every accessed position is inside the input, and the folded constant contains them in order.", "quantifier": "all dimensions, starts, ends (including negative and out-of-range), non-zero steps", "why_tests_cant": "Corner cases of negative steps, clamping and sentinel values are unbounded.", "anchors": ["src/Dialect/ONNX/ONNXOps/Tensor/Slice.cpp:ONNXSliceOpShapeHelper::computeShape", "src/Dialect/ONNX/ElementsAttr/ElementsAttrBuilder.cpp:slice"]}
{"id": "C11", "title": "Folded Pad (constant mode)", "statement": "Folding Pad puts the input elements at their shifted positions, the pad value everywhere else, and never writes outside the output.", "quantifier": "all shapes and non-negative pads", "why_tests_cant": "Tests try a handful of shapes and values; the claim ranges over every rank, shape and value.", "anchors": ["src/Dialect/ONNX/ElementsAttr/ElementsAttrBuilder.cpp:pad"]}
{"id": "C12", "title": "Folded Gather", "statement": "Folding Gather yields output[i.., j.., k..] = input[i.., indices[j..], k..] with negative indices counted from the end.", "quantifier": "all shapes, axes, index tensors", "why_tests_cant": "Tests try a handful of shapes and values; the claim ranges over every rank, shape and value.", "anchors": ["src/Dialect/ONNX/ElementsAttr/ElementsAttrBuilder.cpp:gather"]}
{"id": "C13", "title": "Folded ScatterND", "statement": "Folding ScatterND overwrites exactly the slices addressed by the indices, in order, and leaves the rest; indices follow ONNX (negative values count from the end).", "quantifier": "all shapes, index tensors and updates", "why_tests_cant": "Tests try a handful of shapes and values; the claim ranges over every rank, shape and value.", "anchors": ["src/Dialect/ONNX/ElementsAttr/ElementsAttrBuilder.cpp:scatterND"]}
{"id": "C14", "title": "Folded reductions", "statement": "Folding ReduceSum/Prod/Min/Max over a set of axes yields at each output index the fold of exactly the input elements whose other coordinates match, each once, for keepdims true and false.", "quantifier": "all shapes, axis sets, element monoids", "why_tests_cant": "Tests try a handful of shapes and values; the claim ranges over every rank, shape and value.", "anchors": ["src/Dialect/ONNX/ElementsAttr/ElementsAttrBuilder.cpp:reduce"]}
{"id": "C15", "title": "Parallel reduction is independent of the schedule", "statement": "The work list of a parallel constant reduction is split into batches that cover every output element exactly once for every number of threads, so the result does not depend on thread count or interleaving.", "quantifier": "all element counts, thread counts and interleavings", "why_tests_cant": "Schedules are unbounded and nondeterministic.", "anchors": ["src/Dialect/ONNX/ElementsAttr/ElementsAttrBuilder.cpp:reduce"]}
{"id": "C16", "title": "Folded MatMul", "statement": "Folding MatMul gives sum_k A[..,i,k]*B[..,k,j] with NumPy broadcasting of batch dimensions and of 1-D operands.", "quantifier": "all operand shapes and contents", "why_tests_cant": "Tests try a handful of shapes and values; the claim ranges over every rank, shape and value.", "anchors": ["src/Dialect/ONNX/ElementsAttr/ElementsAttrBuilder.cpp:matMul"]}
{"id": "C17", "title": "Constant-pool garbage collection keeps everything reachable", "statement": "Over every history in which threads create constants, passes edit the module, and the compiler collects, scrubs and closes the pool: no assertion fails; every constant the module refers to can be read and its values never change; a collection leaves in memory exactly the constants (and their shared buffers) that the module refers to; a scrub, under any table order, any number of worker threads and any interleaving, converts each referenced constant exactly once, never reads released data, ends after a bounded number of steps, leaves a module without handles that a reader cannot tell from the one before, and lets the pool be closed; creation after closing returns the element values themselves. This holds as long as handles occur only in the listed attributes and no pass holds one during a collection; both conditions are needed (refuted without them).", "quantifier": "all histories of creation, editing, collection, scrubbing and closing; all modules with nested regions; all interleavings", "why_tests_cant": "Histories and schedules are unbounded.", "anchors": ["src/Dialect/ONNX/ElementsAttr/DisposablePool.cpp:createElementsAttr,garbageCollectUnreachable,scrub,close,insert,eraseUnreachable", "src/Dialect/ONNX/ElementsAttr/DisposableElementsAttr.cpp:create,dispose,getBuffer", "src/Compiler/DisposableGarbageCollector.cpp:runAfterPass", "src/Dialect/ONNX/Transforms/ScrubDisposablePass.cpp"]}
{"id": "C18", "title": "Runtime sort returns a sorted permutation, whatever the pivots", "statement": "omTensorSort produces, for every 1-D slice along the last axis, index vectors that are a permutation of 0..n-1 ordering the values in the requested direction, with ties in increasing index order, for every outcome of rand(); its explicit stack never overflows.", "quantifier": "all inputs, all lengths, all random pivot sequences", "why_tests_cant": "Pivot choice is random and the stack bound depends on the recursion pattern.", "anchors": ["src/Runtime/OMSort.c:quick_sort_custom,quick_sort_partition,omTensorSort"]}
{"id": "C19", "title": "Runtime TopK", "statement": "omTensorTopK returns k distinct indices, sorted in the requested direction, whose values are the k largest (smallest) of the slice; with equal values the lower index wins, as ONNX requires.", "quantifier": "all inputs and all k", "why_tests_cant": "Heap behaviour on ties depends on data layout.", "anchors": ["src/Runtime/OMTopK.c:omTensorTopK,heap_sift_down,make_heap"]}
{"id": "C20", "title": "Runtime Unique", "statement": "omTensorUnique returns the distinct slices (sorted or in first-occurrence order), indices of first occurrences, an inverse map that rebuilds the input, and counts that sum to the number of slices.", "quantifier": "all inputs, with and without axis, sorted and unsorted", "why_tests_cant": "Tests try a handful of shapes and values; the claim ranges over every rank, shape and value.", "anchors": ["src/Runtime/OMUnique.c:omTensorUnique,sliceTableRegister,produceY"]}
{"id": "C21", "title": "Perfect hash lookup finds every dictionary key", "statement": "If the compiler builds a perfect-hash table for a non-empty dictionary of distinct keys (values are table indices), the runtime lookup of each key returns that key's value, and the lookup of any other key returns some index of the table without an access out of bounds or a failing assertion. For strings: NUL-free keys, ASCII unless compiler and target agree on the signedness of char (otherwise refuted). For int64: keys above -10^18 (longer ones are refuted).", "quantifier": "all dictionaries, keys, bucket orders produced by an unstable sort, and step counts for which construction succeeds", "why_tests_cant": "Hash collisions depend on the key set; the key space is infinite.", "anchors": ["src/Conversion/ONNXToKrnl/PerfectHash.cpp:createPerfectHash", "src/Runtime/OMIndexLookup.c:find_index_str,find_index_i64"]}
{"id": "C22", "title": "Perfect hash construction terminates when a displacement exists", "statement": "Building the table: the search for one bucket stops, at the latest, at the smallest hash value below 2^31 that sends its keys to distinct free slots; a dictionary without first-hash collisions is built without search. That construction terminates for every dictionary is false ({\"a\",\"c\"}, {1,3}): this is proved as a refutation.", "quantifier": "all buckets, tables, hash functions; for the refutation all step counts and bucket orders", "why_tests_cant": "Non-termination cannot be observed by a finite test.", "anchors": ["src/Conversion/ONNXToKrnl/PerfectHash.cpp:createPerfectHash"]}
{"id": "C23", "title": "External constant loading", "statement": "omLoadConstantData always returns, without disturbing other memory or globals. If it succeeds on an unset global, the global points to a page-aligned copy of the first size bytes of the file named by OM_CONSTANT_PATH/fname, in order, however the OS splits the reads (where the file is mapped: provided the file has that many bytes). It succeeds if the file is there and long enough, memory is available, the byte order matches and no read fails. Where the file is mapped, a failed load changes nothing, so a later load is retried, and any number of threads may load at once. Over any history of loads and address lookups the contents stay in place; an address looked up gives the bytes at that offset; unloading gives back exactly that block. Refuted parts: where the file is read, a failed read leaves a freed pointer that the next load reports as loaded, and threads may see unread memory; a truncated file is mapped without error; after unloading, the stale pointer is reported as loaded and can be freed twice; an address looked up before loading is never corrected.", "quantifier": "all file contents, all short-read/interrupt schedules, all states, all call histories, all thread schedules", "why_tests_cant": "Short reads, interrupts, call sequences and thread schedules are environment-controlled.", "anchors": ["src/Runtime/OMExternalConstant.c:omLoadConstantData,mallocAndReadFile,mmapAndReadFile,omUnloadConstantData,omGetExternalConstantAddr"]}
{"id": "C24", "title": "float <-> bfloat16 conversion", "statement": "om_f32_to_bf16 rounds every finite float to nearest-even bfloat16, keeps infinities, maps NaN to NaN, keeps the sign; om_bf16_to_f32 is exact and the round trip bf16->f32->bf16 is the identity on non-NaNs.", "quantifier": "all 2^32 floats and 2^16 bfloat16 values", "why_tests_cant": "2^32 inputs; the correctness criterion (nearest-even) is relational.", "anchors": ["src/Support/SmallFPConversion.c:om_f32_to_bf16,om_bf16_to_f32"]}
{"id": "C25", "title": "float <-> float16 conversion", "statement": "om_f32_to_f16 (software path) rounds every float to nearest-even half precision (with overflow to infinity and subnormals), om_f16_to_f32 is exact, and the round trip f16->f32->f16 is the identity on non-NaNs.", "quantifier": "all 2^32 floats and 2^16 halves", "why_tests_cant": "2^32 inputs; the criterion is relational.", "anchors": ["src/Support/SmallFPConversion.c:om_f32_to_f16,om_f16_to_f32"]}
{"id": "C26", "title": "double -> float16 conversion helper", "statement": "__truncdfhf2 returns the half nearest to the float nearest to the given double: it is correctly rounded for every double that is exactly a float, and always faithful (a finite result lies between the neighbouring halves below and above). That it is correctly rounded for every double is refuted.", "quantifier": "all 2^64 double bit patterns", "why_tests_cant": "2^64 inputs; the double-rounding cases are rare.", "anchors": ["src/Runtime/OMTensor.inc:__truncdfhf2"]}
{"id": "C27", "title": "Symbolic dimension arithmetic is sound", "statement": "Index expressions built by the compiler evaluate, for every runtime value of the dynamic dimensions, to the integer the operator sequence denotes, no matter whether they were folded to literals, kept affine, or emitted as runtime code. (Six uses are excluded because the claim is false for them, each with a refutation: subtracting a min/max, min/max propagation in NDEBUG builds, the value of an all-literal min/max, non-index constants, run-time remainder of negative numbers, clamp with lo > hi.)", "quantifier": "all straight-line operator sequences, all assignments of runtime dimensions, both passes (shape inference and lowering), every sound affine simplifier", "why_tests_cant": "Infinite families of expressions and dimension values.", "anchors": ["src/Dialect/Mlir/IndexExpr.cpp:IndexExpr::binaryOp,operator+,operator-,operator*,floorDiv,ceilDiv,operator%,clamp,select,min,max", "src/Dialect/Mlir/IndexExprDetail.cpp:IndexExprImpl::init,getAffineExpr,getValue"]}
{"id": "C28", "title": "Literal floorDiv/ceilDiv computed in double precision are exact", "statement": "The compile-time floorDiv and ceilDiv, computed through double division, equal the mathematical floor/ceiling for every pair of operands with |a| < 2^53 and |b| <= 2^53; beyond that range they are not exact (refuted by a witness).", "quantifier": "all operand pairs below 2^53 in magnitude; witness for the rest of the 64-bit range", "why_tests_cant": "2^107 operand pairs; failures are sparse.", "anchors": ["src/Dialect/Mlir/IndexExpr.cpp:IndexExpr::floorDiv,IndexExpr::ceilDiv"]}
{"id": "C29", "title": "Broadcast shape inference agrees with the run-time shapes", "statement": "If the run-time shapes of the operands of an elementwise op broadcast to R (ONNX multidirectional broadcasting), shape inference accepts the op and the inferred shape evaluates to R, provided no dimension unknown at compile time is 0; static shapes that do not broadcast are rejected; for unidirectional ops the inferred shape is that of the first operand. With two unknown dimensions 0 and 1 the inferred result is 1 instead of 0 (refuted).", "quantifier": "all operand counts, ranks, static/dynamic dimension mixes and run-time values", "why_tests_cant": "Dynamic shapes are unbounded and the check happens before the values are known.", "anchors": ["src/Dialect/ONNX/ONNXOps/ShapeHelper.cpp:ONNXBroadcastOpShapeHelper::customComputeShape"]}
{"id": "C30", "title": "Collapsing inner loops of a broadcast op is valid", "statement": "The number k of innermost dimensions the compiler decides to flatten is such that every operand is, on these dimensions, either a single element or shaped exactly like the output, the flattened size is the product of the output dimensions, and the flattened code reads for each output element exactly the operand element that broadcasting prescribes.", "quantifier": "all operand shapes, run-time values, positions and sound answers of the dimension analysis", "why_tests_cant": "Depends on arbitrary combinations of static, dynamic and unit dimensions.", "anchors": ["src/Dialect/ONNX/ONNXOps/ShapeHelper.cpp:hasManageableBroadcastForInnerDims,getAccessExprs", "src/Conversion/ONNXToKrnl/Math/Elementwise.cpp:getPartiallyFlattenedSimdCode"]}
{"id": "C31", "title": "Reshape shape computation conserves elements", "statement": "For a tensor without empty dims and a legal target (0 copies the input dim, at most one -1) that some shape satisfies, the shape computed at run time is that shape, whichever dims the dimension analysis found equal; and every dim found by shape inference from partial knowledge of the input and target is that of the actual shape. Refuted: tensors with an empty dim (division by zero, or a changed element count) and allowzero=1.", "quantifier": "all input shapes, targets and partial knowledge of them", "why_tests_cant": "The claim ranges over every rank, shape and value.", "anchors": ["src/Dialect/ONNX/ONNXOps/Tensor/Reshape.cpp:computeShape"]}
{"id": "C32", "title": "Split sizes and copies", "statement": "Without explicit sizes, a dimension divisible by the number of outputs is split as ONNX says, static or dynamic; any static dimension is split into sizes that add up to it and differ by at most one, or rejected before opset 18. When the sizes add up to the dimension, the copy loops fill each output with its chunk and read nothing out of bounds. Refuted: uneven splits are not the ONNX ones, uneven dynamic splits never add up and read out of bounds, and explicit sizes are not checked.", "quantifier": "all dimensions, numbers of outputs, shapes, axes and element types", "why_tests_cant": "The claim ranges over every rank, shape and value.", "anchors": ["src/Dialect/ONNX/ONNXOps/Tensor/Split.cpp:customComputeShape", "src/Conversion/ONNXToKrnl/Tensor/Split.cpp:ONNXSplitOpLoweringCommon"]}
{"id": "C33", "title": "Squeeze and Unsqueeze are inverse on shapes", "statement": "Unsqueezing at a set of axes (negative allowed) inserts 1s exactly there, and squeezing the same axes restores the shape; Unsqueeze rejects duplicate and out-of-range axes and nothing else; Squeeze keeps exactly the other dims and without axes removes exactly the 1s. Refuted: Squeeze accepts a dim that is not 1.", "quantifier": "all shapes and axis lists", "why_tests_cant": "The claim ranges over every rank, shape and axis list.", "anchors": ["src/Dialect/ONNX/ONNXOps/Tensor/Squeeze.cpp:customComputeShape", "src/Dialect/ONNX/ONNXOps/Tensor/Unsqueeze.cpp:customComputeShape"]}
{"id": "C34", "title": "Output size and pads of convolution and pooling", "statement": "For every axis accepted by the verifier: with SAME_UPPER/SAME_LOWER the output size is ceil(input/stride), the pads make exactly that many windows fit, have the smallest possible total, and differ by at most one with the larger at the end/beginning; with explicit pads or VALID (no pads) in floor mode exactly that many windows fit in the padded input; in ceil mode it is the least number of windows reaching its end. Two ceil-mode facts are refuted: the last window may lie outside the input, and VALID does not follow the ONNX formula.", "quantifier": "all input sizes, kernels, strides, dilations and pads", "why_tests_cant": "The sizes are unbounded.", "anchors": ["src/Dialect/ONNX/ONNXOps/NN/NNHelper.cpp.inc:customComputeShape,verifyKernelShape,verifyStrides,verifyDilations,verifyPadding"]}
{"id": "C35", "title": "OMTensor ownership: no leak, no double free", "statement": "Along any sequence of creation, SetDataPtr, SetOwning, Destroy, list creation, list destruction and list access calls in which only live objects are passed and ownership of a buffer is given only by its owner, and whichever allocations fail: no call touches or frees freed memory; a tensor owning a buffer frees it exactly when it is destroyed or its buffer replaced; a failed creation leaves nothing behind; and the live memory is exactly the data buffers, structures and arrays of what is alive, so nothing is leaked. Two owners of one buffer, replacing an owned buffer by itself, and destroying a list holding a tensor twice are refuted.", "quantifier": "all call histories and all allocation-failure schedules", "why_tests_cant": "Histories and failure schedules are unbounded.", "anchors": ["src/Runtime/OMTensor.inc:omTensorCreate,omTensorCreateEmpty,omTensorDestroy,omTensorSetDataPtr,omTensorSetOwning", "src/Runtime/OMTensorList.inc:omTensorListCreate,omTensorListDestroy,omTensorListDestroyShallow,omTensorListGetOmtByIndex"]}
{"id": "C36", "title": "Names are resolved by lexical scoping", "statement": "The symbol table of the importer accepts exactly the histories that add a name to an open scope that does not have it yet and close scopes in reverse order; a lookup finds the outermost binding, which without shadowing is the innermost one; closing a scope restores the table. Refuted: a name that hides an outer one resolves to the outer one.", "quantifier": "all histories of opening scopes, adding names and closing scopes", "why_tests_cant": "The claim ranges over every history.", "anchors": ["src/Builder/SymbolTable.hpp:SymbolMapping"]}
{"id": "C37", "title": "Integer constant folding matches run-time arithmetic", "statement": "For every expression of Add, Sub, Mul, Div, Mod, Min, Max, Abs, Relu, Neg, bitwise and logical operators, comparisons and casts over integer and boolean constants of any depth: if no value that overflowed its element type reaches an operator that looks at magnitudes (division, comparison, Min/Max, Abs, widening or boolean cast), the folded constant is the value of the expression in ONNX element arithmetic, which is also what the generated code computes whenever it computes a value. Chains of Add, Sub, Mul, Neg and bitwise operators, and expressions over 64-bit types only (Abs aside), need no such condition. A single operator on 8-, 16- or 32-bit constants always folds, to the right value. Clip folds to the clipped value if both bounds are given or the type is unsigned. Refuted parts: intermediate results are kept in 64 bits, so int8 (100+100)/2 folds to 100 while the program computes -28, and a cast down and up again does not truncate; Abs beyond 2^53 is rounded through double; Clip with a missing bound on a signed type clips to 0 / -1; Mod by zero, the smallest int64 Mod -1, unsigned Mod and int64 overflow are undefined behaviour in the compiler; the fmod attribute is ignored on integers.", "quantifier": "all expressions of all depths, all element types, all constants", "why_tests_cant": "The folder computes in 64-bit, the program in the element type; tests sample a few values and rarely chains that overflow.", "anchors": ["src/Dialect/ONNX/Transforms/ConstProp.cpp:ElementWiseBinaryOpImpl,ElementWiseUnaryOpImpl,createMinimumValueForClip", "src/Dialect/ONNX/ElementsAttr/ElementsAttrBuilder.cpp:combine,castToIntElementType", "src/Dialect/ONNX/ElementsAttr/WideNum.hpp", "src/Conversion/ONNXToKrnl/Math/Elementwise.cpp", "src/Dialect/Mlir/DialectBuilder.cpp:MathBuilder"]}
{"id": "C38", "title": "Moving, merging and removing constants preserves the tensor", "statement": "Take any expression of elementwise integer operators over inputs and constants with broadcasting, whose static types were inferred, and any sequence of the constant-propagation rewrites that commute, reassociate, merge and fold constants through Add, Mul, Sub, Neg and the bitwise operators and that drop a zero or one on the right of Add, Sub, Mul and Div, applied in any order and at any places. If all types are static, the final expression has the same shape and the same element at every index as the first, for all inputs, in wrap-around arithmetic of the element type, although constants are kept in 64 bits. With dynamic or unranked types the same holds as long as zeros and ones are only dropped from operations of ranked type, and the declared type of the result still describes it. Refuted without that condition: the rewrites give the operators they create unranked types, and x + 0 is replaced by x when both types are unranked although the zero constant broadcasts x, so ((p+5)+q)+(-[[0,0,0]]) can become a 1x1 tensor declared ?x3.", "quantifier": "all expressions, histories of rewrites, types, shapes, inputs and integer element types", "why_tests_cant": "Rewrites compose in unbounded ways.", "anchors": ["src/Dialect/ONNX/Transforms/ConstProp.td:AddConstCommutative1,AddConstAssociative1-4,AddZerosOnRhs,MulConstAssociative1-4,MulOnesOnRhs,DivOnesOnRhs,SubConstToNeg,SubZerosOnRhs,NegofConst", "src/Dialect/ONNX/Transforms/ConstProp.cpp:ConstPropElementwiseBinary,satisfiesExpansionBound", "src/Dialect/ONNX/ONNXOps.cpp:getBroadcastedRankedType", "src/Dialect/ONNX/ONNXOps/OpHelper.cpp:isConstOf,isScalarTensor"]}
{"id": "C39", "title": "Folded NonZero", "statement": "Folding NonZero of a constant lists, column by column and in row-major order, exactly the indices of the non-zero elements.", "quantifier": "all constants (any shape and storage)", "why_tests_cant": "the property ranges over every tensor content and layout", "anchors": ["src/Dialect/ONNX/ElementsAttr/ElementsAttrBuilder.cpp: nonZero"]}
{"id": "C40", "title": "Folded Range", "statement": "Folding Range produces start, start+delta, ... with as many elements as the result shape says.", "quantifier": "all lengths, starts and deltas", "why_tests_cant": "unbounded lengths", "anchors": ["src/Dialect/ONNX/ElementsAttr/ElementsAttrBuilder.cpp: range"]}
{"id": "C41", "title": "CategoryMapper maps each category to its counterpart and everything else to the default", "statement": "For distinct categories, the compiled CategoryMapper returns for input x the i-th output when x is the i-th category, and the default otherwise: for every int64 input, and for every string input of which no category is a proper prefix. Inputs extending a category (refuted: they are taken for the category) and repeated categories (refuted: the runtime asserts) are excluded.", "quantifier": "all category lists, outputs, defaults and inputs", "why_tests_cant": "Inputs and category sets are unbounded; collisions depend on all keys together.", "anchors": ["src/Conversion/ONNXToKrnl/ML/CategoryMapper.cpp:createPerfectHashTable,emitFindIndex,storeResult", "src/Runtime/OMIndexLookup.c"]}
{"id": "C42", "title": "Elementwise ops read the operand elements that broadcasting prescribes", "statement": "For each output index the access functions computed by the compiler, including run-time selects on dimensions unknown at compile time and the shortcut taken when broadcasting has been ruled out, address the operand element prescribed by ONNX broadcasting, and that index is in bounds.", "quantifier": "all operand shapes and ranks, run-time values, output indices", "why_tests_cant": "Out-of-bounds or wrong reads only show for particular run-time shapes.", "anchors": ["src/Dialect/ONNX/ONNXOps/ShapeHelper.cpp:hasNoBroadcast,getAccessExprs"]}
{"id": "C43", "title": "The generated SIMD loop handles each element exactly once", "statement": "The vector loop and its scalar remainder generated for the range lb..ub with vector length VL handle lb, ..., ub-1 each once and in order; when full SIMD is forced every position is covered and fewer than VL positions past the end are touched, none if VL divides the trip count.", "quantifier": "all bounds and vector lengths", "why_tests_cant": "Remainders depend on run-time trip counts.", "anchors": ["src/Dialect/Mlir/DialectBuilder.hpp.inc:simdIterateIE", "src/Dialect/Mlir/DialectBuilder.cpp"]}
{"id": "C44", "title": "Pooling reduces exactly the pixels of its window", "statement": "MaxPool and AveragePool without dilation read, for each output, exactly the input pixels of its window, in row-major order and never outside the input, in floor and ceil mode, and AveragePool divides by their number when there is one (always, in floor mode with pads smaller than the kernel). The same holds with dilation two in floor mode, and with any dilation in ceil mode for windows inside the input, when there is no padding or the stride is a multiple of the dilation. Refuted: dilation three or more in floor mode (last tap dropped), a dilated axis with an undilated one and cut windows in ceil mode (reads outside the input), unaligned padding (wrong pixels), and empty ceil-mode windows (negative denominator).", "quantifier": "all ranks, sizes, kernels, strides, pads, dilations, element types and inputs", "why_tests_cant": "Unbounded sizes and ranks; the wrong cases need a particular combination of attributes.", "anchors": ["src/Conversion/ONNXToKrnl/NN/Pooling.cpp:ONNXPoolOpLowering,postProcessPoolingWindow", "src/Dialect/ONNX/ONNXOps/OpHelper.cpp:getIndexExprsForConvWindow,getWindowAffineMap"]}
{"id": "C45", "title": "The convolution loops compute the convolution", "statement": "For every well-formed Conv, of any rank, number of groups, stride, dilation and padding, and for any element type and operations: the generated loops load nothing out of bounds, store each output element exactly once and leave none unset, and each is the sum over the kernel, in row-major order, of the products with the input pixels that exist, plus the bias; over the integers this is the convolution of the zero-padded input.", "quantifier": "all shapes, attributes, inputs and element types", "why_tests_cant": "Unbounded shapes; the reduction bounds depend on all attributes at once.", "anchors": ["src/Conversion/ONNXToKrnl/NN/Conv.cpp:convUnoptimized"]}
{"id": "C46", "title": "Flatten keeps the elements in row-major order", "statement": "Flatten at any axis allocates a matrix of the product of the dims before the axis by the product of the others, and its loops store each element of it exactly once, at the same row-major position as in the input, with no access out of bounds; the inferred shape agrees with the allocated one.", "quantifier": "all shapes, axes and element types", "why_tests_cant": "The claim ranges over every rank, shape and axis.", "anchors": ["src/Conversion/ONNXToKrnl/Tensor/Flatten.cpp:ONNXFlattenOpLowering", "src/Dialect/ONNX/ONNXOps/Tensor/Flatten.cpp:computeShape"]}
{"id": "C47", "title": "Concat places its inputs one after the other", "statement": "For inputs equal except along the axis, the computed shape is theirs with the sum along the axis, inputs of shape [0] being skipped; the copy loops store each output element exactly once, from the right input, with no access out of bounds; and concatenating the chunks of a Split along the same axis gives the tensor back.", "quantifier": "all numbers of inputs, shapes, axes and element types", "why_tests_cant": "The claim ranges over every rank, shape and number of inputs.", "anchors": ["src/Dialect/ONNX/ONNXOps/Tensor/Concat.cpp:computeShape", "src/Conversion/ONNXToKrnl/Tensor/Concat.cpp:ONNXConcatOpLowering"]}
{"id": "C48", "title": "Importing an ONNX graph keeps its meaning", "statement": "For every graph in which names are defined once and before use, with subgraphs capturing outer names, omitted optional inputs and outputs, initializers that are also inputs, and calls of functions inlined by name, import succeeds, every operation uses only values defined before it, and running the imported operations gives the outputs the graph means, for all inputs. Refuted: an undefined input name is dropped and shifts the operands, shadowed names, calls that leave out a trailing output or two outputs, Dropout with an empty ratio, Slice with an empty optional input.", "quantifier": "all well-scoped graphs, operator semantics and input values", "why_tests_cant": "The claim ranges over every graph, nesting and input.", "anchors": ["src/Builder/FrontendDialectTransformer.cpp:importGraph", "src/Builder/FrontendDialectTransformer.cpp:buildOutputAndOperation", "src/Builder/FrontendDialectTransformer.cpp:getNodeInputs", "src/Builder/FrontendDialectTransformer.cpp:ImportFunctionCallNode", "src/Builder/FrontendDialectTransformer.cpp:ImportNodeDropout", "src/Builder/FrontendDialectTransformer.cpp:ImportNodeSlice"]}
{"id": "C49", "title": "Unsorted graphs are put in order", "statement": "Sorting gives an ordering of the same nodes in which every explicit input is defined before its use, the lexicographically smallest one; it fails exactly when there is none; nodes in order stay in place. A model without subgraphs whose nodes come in any order is imported if some order is legal, and computes what any legal order means. Refuted: values captured by subgraphs are not counted; an unsortable model is reported as success without a module.", "quantifier": "all lists of nodes, all legal orders and input values", "why_tests_cant": "The claim ranges over every graph and every order of its nodes.", "anchors": ["src/Builder/ImportONNXUtils.cpp:SortGraph", "src/Builder/ImportONNXUtils.cpp:IsTopologicallySorted", "src/Builder/FrontendDialectTransformer.cpp:ImportFrontendModelInternal", "src/Builder/FrontendDialectTransformer.cpp:ImportFrontendModelArray"]}
{"id": "C50", "title": "Each operator is imported in the right version", "statement": "The version chosen for an operator is the oldest supported one that is not older than the version the opset of the model has for it, and the newest supported one if all are older; a supported version is imported as itself.", "quantifier": "all tables of versions and all opsets", "why_tests_cant": "The claim ranges over every table and opset.", "anchors": ["src/Builder/FrontendDialectTransformer.cpp:GetImportVersionOfNode"]}
{"id": "C51", "title": "Constants moved to a file keep their values", "statement": "When constants are stored in a file, exactly the movable ones (not returned, not bool, not splat, larger than the threshold) are moved, each once, at recorded non-overlapping offsets that respect their alignments, and the recorded size is that of the file. When the compiled library is loaded with that file in place, either every moved constant is read back as its own bytes at an address aligned as asked for (if the alignment divides the page size), or the load reports failure and every pointer stays null. Unloading gives back that memory and nothing else. Refuted: alignments larger than a page; an older file that could not be removed.", "quantifier": "all modules, constants, alignments and thresholds, every order left by the sort, all OS behaviours at load time", "why_tests_cant": "Packing depends on every combination of sizes and alignments and crosses the compiler/runtime boundary.", "anchors": ["src/Conversion/KrnlToLLVM/ConvertKrnlToLLVM.cpp:extractConstantsToFile,emitLoadConstantDataFunc,emitUnloadConstantDataFunc", "src/Runtime/OMExternalConstant.c"]}
{"id": "C52", "title": "Constant-moving rewrites terminate", "statement": "The rewrites of C38 cannot go on for ever: whatever order they are applied in and whatever the expansion bound is, an expression with n operators allows at most (n+1)^6 of them.", "quantifier": "all expressions, all sequences of rewrites, all expansion bounds", "why_tests_cant": "A loop between rewrite rules shows only on the expressions that trigger it, as a compiler that does not return.", "anchors": ["src/Dialect/ONNX/Transforms/ConstProp.td:AddConstCommutative1,AddConstAssociative1-4,MulConstCommutative1,MulConstAssociative1-4,SubConstToNeg"]}
{"id": "C53", "title": "Unknown dimensions the compiler calls equal are equal", "statement": "When the analysis of unknown dimensions answers that two dimensions are equal, that two tensors have the same shape, that one broadcasts into the other along the last axis, or that one dimension exceeds another by a given number, this is true in every run of the model; the onnx.Dim operations merged into one on the strength of that analysis compute the same number; the answer does not depend on the order of the question; and the classification of dimensions always ends, with a result whenever the program has an ordinary run; the whole analysis ends when no Cast yields a known dimension and onnx.Dim does not read the first dimension of a tensor with a known dimension 1. The conditions are: what shape inference says is true; no tensor is empty, non-constant shape entries are positive, three or more operands are not broadcast, Expand yields the requested shape; and for the offset rules, a constant is not added to a tensor with unknown dimensions. Each condition is needed: without it there is a refutation in which the analysis is wrong, reads out of bounds, aborts or (with a Cast or block argument of one element used as a shape entry) never ends.", "quantifier": "all programs over the modelled operators, all their runs, all queries, all fuels", "why_tests_cant": "It quantifies over all graphs and all run-time shapes; a wrong answer shows only for particular shapes.", "anchors": ["src/Dialect/ONNX/ONNXDimAnalysis.cpp:analyze,visitDim,visitDimForOffsets,propagateOffsetRelations,mergeDimSets,sameDim,sameShape,broadcastLastDim,getDimOffset,sameDimWithOffset", "src/Dialect/ONNX/ONNXOps/OpHelper.cpp:areDims,getDims,getScalarValue", "src/Dialect/ONNX/Transforms/RemoveSameONNXDim.cpp"]}
{"id": "C54", "title": "CumSum computes cumulative sums", "statement": "The code emitted for CumSum leaves in every element of the result the sum of the input elements along the axis up to it (without itself with exclusive = 1; counted from the end with reverse = 1), and reads neither out of bounds nor memory never written, for every shape, every axis in range (negative axes count from the end), and sizes known at compile time or not; except that when the axis is known at compile time to have exactly one element the result is never written at all (refuted with a witness).", "quantifier": "all shapes, axes, flags, element values and additions that form a commutative monoid (integers, integers modulo a power of two)", "why_tests_cant": "The number of doubling passes depends on the size of the axis, and the sums on all element values; a missing pass shows only for some sizes.", "anchors": ["src/Conversion/ONNXToKrnl/Math/CumSum.cpp:getLoopIndexByAxisAndOffset,ONNXCumSumOpLowering"]}
{"id": "C55", "title": "Gather, GatherElements and GatherND at run time", "statement": "The code emitted for Gather yields out[i.., j.., k..] = data[i.., indices[j..], k..] and for GatherElements out[i] = data[i with indices[i] at the axis], negative indices counted from the end, whether or not the indices are constants; with safe code generation any index value is harmless and illegal ones read the nearest position; for GatherND out[b.., j.., k..] is data at b.., the index tuple at b.., j.., then k.., for every number of batch dimensions, when no index value is negative. No access is out of bounds. Refuted: GatherND with a negative index value (read out of bounds); the warning of safe code that the index is replaced with zero.", "quantifier": "all shapes, ranks, axes, batch dimensions, element and index values", "why_tests_cant": "Accesses depend on index values and on how ranks combine; an out-of-bounds read may go unnoticed.", "anchors": ["src/Conversion/ONNXToKrnl/Tensor/Gather.cpp", "src/Conversion/ONNXToKrnl/Tensor/GatherElements.cpp", "src/Conversion/ONNXToKrnl/Tensor/GatherND.cpp", "src/Conversion/ONNXToKrnl/ONNXToKrnlCommon.cpp:indicesAreNonNegativeConstants,genSafeCodeForGatherAlike"]}
{"id": "C56", "title": "ScatterElements and ScatterND at run time", "statement": "The code emitted for ScatterElements without reduction writes update u to position u with indices[u] (negative counted from the end) at the axis and copies all other elements; for ScatterND without reduction it writes each slice of the updates at its index tuple and copies the rest, when the tuples have rank(indices)-1 values and none is negative; of several updates of one element the last one wins; no access is out of bounds. Refuted: ScatterND with tuples of another size (wrong element written), with a negative index value (write out of bounds), with a scalar update (invalid access in the compiler), and any reduction other than none (ignored).", "quantifier": "all shapes, ranks, axes, element, index and update values", "why_tests_cant": "Accesses depend on index values and on how ranks combine; tests use the shapes for which the ranks happen to agree.", "anchors": ["src/Conversion/ONNXToKrnl/Tensor/ScatterElements.cpp", "src/Conversion/ONNXToKrnl/Tensor/ScatterND.cpp", "src/Dialect/ONNX/ONNXOps/Math/Scatter.cpp"]}
{"id": "C57", "title": "Pad at run time", "statement": "The code emitted for Pad gives each dimension begin pad + size + end pad; in constant mode with non-negative pads every input element is moved by the begin pads and everything else is the pad value; in edge mode (pads of either sign) the padding repeats the nearest element; in reflect mode with pads smaller than the dimension it mirrors the elements at the first and last one. No access is out of bounds. Refuted: constant mode with a negative pad (write out of bounds), mode wrap (accepted, reads the wrong element or out of bounds), reflect mode with a pad not smaller than the dimension (read out of bounds).", "quantifier": "all shapes, ranks, pads and element values", "why_tests_cant": "The index arithmetic is per dimension and depends on the run-time pads; tests use a few pads.", "anchors": ["src/Conversion/ONNXToKrnl/Tensor/Pad.cpp", "src/Dialect/ONNX/ONNXOps/Tensor/Pad.cpp"]}
{"id": "C58", "title": "Tile, OneHot and ReverseSequence at run time", "statement": "The code emitted for Tile yields out[o] = input[o mod input shape] with each dimension repeats times as large; for OneHot it inserts the depth axis at the given place (negative counted from behind the last) and holds the on value exactly where the index value, counted from the end if negative, points, all off for index values out of range; for ReverseSequence it reverses the first lens[b] time steps of each batch and copies the rest. No access is out of bounds.", "quantifier": "all shapes, ranks, axes, repeats, depths, index values, lengths and element values", "why_tests_cant": "The property quantifies over all shapes and values.", "anchors": ["src/Conversion/ONNXToKrnl/Tensor/Tile.cpp", "src/Conversion/ONNXToKrnl/Tensor/OneHot.cpp", "src/Conversion/ONNXToKrnl/Tensor/ReverseSequence.cpp"]}
{"id": "C59", "title": "NonZero at run time", "statement": "The code emitted for NonZero has no access out of bounds and yields one row per dimension and one column per non-zero element. Each row holds the right multiset of coordinates in ascending order, so the first row, any row whose coordinates are ascending in row-major order, and the whole output for a vector are right. Refuted from rank 2 on: for [[0,1],[1,0]] the columns are not the positions of the non-zero elements.", "quantifier": "all shapes, ranks and element values", "why_tests_cant": "The example in the ONNX tests has ascending coordinates in every row, so it passes.", "anchors": ["src/Conversion/ONNXToKrnl/Tensor/NonZero.cpp"]}
{"id": "C60", "title": "ArgMin and ArgMax at run time", "statement": "The code emitted for ArgMin (ArgMax) yields for each slice along the axis the first position of its least (greatest) value, with the axis set to 1 or removed as keepdims says, and no access is out of bounds, for element types ordered like integers. Refuted: with select_last_index = 1 it still yields the first position.", "quantifier": "all shapes with any axis, positive or negative, and all element values", "why_tests_cant": "The property quantifies over all shapes, axes and values, including ties.", "anchors": ["src/Conversion/ONNXToKrnl/Tensor/ArgMinMax.cpp", "src/Conversion/ONNXToKrnl/ONNXToKrnlCommon.cpp", "src/Dialect/ONNX/ONNXOps/Tensor/ArgMinMax.cpp"]}
{"id": "C61", "title": "Reductions at run time", "statement": "The code emitted without SIMD for ReduceSum, ReduceProd, ReduceMax, ReduceMin and ReduceMean yields a tensor of the ONNX shape in which each element is the reduction of exactly the input elements that share its position, in row-major order; ReduceMean divides by their number; no access is out of bounds. Refuted: a constant empty axes tensor with noop_with_empty_axes = 0 and keepdims = 1 writes out of bounds; an empty run-time axes tensor of known length reduces nothing; ReduceMean with an empty result divides by zero.", "quantifier": "all shapes, all axes (absent, constant or known at run time only; positive, negative, repeated), keepdims, noop_with_empty_axes and element values", "why_tests_cant": "The property quantifies over all shapes, axes tensors and values; the axes may only be known at run time.", "anchors": ["src/Conversion/ONNXToKrnl/Math/Reduction.cpp", "src/Dialect/ONNX/ONNXOps/Math/Reduction.cpp", "src/Conversion/ONNXToKrnl/ONNXToKrnlCommon.cpp"]}
{"id": "C62", "title": "Vectorized and parallel reduction of a whole tensor", "statement": "Reducing a whole tensor to a scalar with SIMD combines every (preprocessed) element exactly once for every vector length, and with the parallel option for every order of the eight threads when the size is known at compile time or at least 49, for operations that are associative and commutative with an identity; no access is out of bounds. Refuted: parallel code for small sizes unknown at compile time counts elements twice or reads out of bounds; the parallel maximum of absolute values of 33 elements is the identity made positive; a scalar input fails an assertion.", "quantifier": "all shapes and sizes, vector lengths, thread orders, operations with the stated algebra and element values", "why_tests_cant": "The boundary between full vectors, remainder and chunks depends on the size, the vector length and the thread; tests use a few sizes and one schedule.", "anchors": ["src/Conversion/ONNXToKrnl/Math/Reduction.cpp", "src/Dialect/Mlir/DialectBuilder.hpp.inc", "src/Dialect/Mlir/DialectBuilder.cpp", "src/Dialect/Krnl/DialectBuilder.cpp", "src/Conversion/ONNXToKrnl/ONNXToKrnlCommon.cpp"]}
{"id": "C63", "title": "Reductions with SIMD", "statement": "With SIMD enabled, the code emitted for ReduceSum, ReduceProd, ReduceMax, ReduceMin and ReduceMean yields the same tensor as specified for C61 (shape, and in each position the reduction of exactly the right input elements), whichever of the full, horizontal, shuffle-based or scalar loops is chosen, for operations that are associative and commutative with an identity. Refuted: noop_with_empty_axes = 1 without axes and keepdims = 0 reduces everything; repeated axes whose number equals the rank reduce every dimension.", "quantifier": "all shapes, axes, keepdims, noop_with_empty_axes, vector lengths, hardware capabilities, operations with the stated algebra and element values", "why_tests_cant": "Which loop is emitted depends on axes, shape and target; shuffles are correct only for every lane and every vector length together.", "anchors": ["src/Conversion/ONNXToKrnl/Math/Reduction.cpp", "src/Dialect/Mlir/DialectBuilder.hpp.inc", "src/Dialect/Mlir/DialectBuilder.cpp", "src/Dialect/Krnl/DialectBuilder.cpp", "src/Conversion/ONNXToKrnl/ONNXToKrnlCommon.cpp"]}
{"id": "C64", "title": "Matrix products", "statement": "The code emitted for MatMul, with or without tiling and SIMD, for vectors, matrices and stacks of matrices, has the numpy shape and each element is the sum of the products of the right row and column, with no access out of bounds; when batch dimensions are broadcast only by being absent, no dimension is known to be zero (with tiling), and, for a SIMD product by one column, the addition is associative and commutative and the vector length is a power of two. In every other case the additions are in increasing order of the contracted index. Refuted: a batch dimension 1 stretched to n reads out of bounds (known dimensions) or yields one batch (unknown dimensions); a dimension known to be zero gives tiles of size zero; a SIMD product by one column adds in another order.", "quantifier": "all ranks, sizes, compile-time knowledge of dimensions, options, vector lengths, answers of the equal-dimension analysis and element values", "why_tests_cant": "Full and partial tiles, vector and scalar variants and broadcast kinds combine; tests use a few sizes for each.", "anchors": ["src/Conversion/ONNXToKrnl/Math/MatMul.cpp", "src/Conversion/KrnlToAffine/KrnlMatmul.cpp", "src/Dialect/ONNX/ONNXOps/Math/MatMul.cpp", "src/Dialect/Mlir/DialectBuilder.cpp"]}
{"id": "C65", "title": "General matrix multiplication", "statement": "The code emitted for Gemm, with or without tiling and SIMD, yields the matrix alpha*A*B + beta*C of the specified shape, with A and B transposed as asked and the bias broadcast, the products added in increasing order of the contracted index, with no access out of bounds and no read of an uninitialised tile-buffer cell. Excluded and refuted: with tiling, alpha = 1 and beta = 0, the bias is ignored even where 0 times its element is not neutral (NaN, infinity).", "quantifier": "all sizes, transposes, bias shapes, compile-time knowledge of dimensions, options, vector lengths, coefficients and element values", "why_tests_cant": "Cache tiles, register tiles, partial tiles and result buffering depend on the residues of three sizes; tests use a few sizes.", "anchors": ["src/Conversion/ONNXToKrnl/Math/Gemm.cpp", "src/Conversion/KrnlToAffine/KrnlMatmul.cpp", "src/Conversion/KrnlToAffine/KrnlCopyToBuffer.cpp", "src/Conversion/KrnlToAffine/KrnlCopyFromBuffer.cpp", "src/Dialect/ONNX/ONNXOps/Math/Gemm.cpp"]}
{"id": "C66", "title": "Compress at run time", "statement": "The code emitted for Compress yields exactly the slices (or, without an axis, the elements in row-major order) whose position has a true condition, in order, in an output of exactly that size, with no access out of bounds, also when the condition is shorter than the axis. Excluded and refuted: a condition with a true entry past the end (the extra slices are never written) and a scalar with an empty condition of known length (read out of bounds).", "quantifier": "all shapes, axes, conditions, element values and compile-time knowledge of the dimensions", "why_tests_cant": "Which bounds tests are emitted depends on static knowledge, and the counts on the data; tests use a few conditions.", "anchors": ["src/Conversion/ONNXToKrnl/Tensor/Compress.cpp", "src/Dialect/ONNX/ONNXOps/Tensor/Compress.cpp"]}
{"id": "C67", "title": "Range at run time", "statement": "The code emitted for Range on integers yields max(ceil((limit - start)/delta), 0) elements start + i*delta, for representable limit - start; on floats each element is its predecessor plus delta. Excluded and refuted: a non-constant range whose limit lies on the wrong side of start (negative dimension), a limit - start that overflows (wrong count), and start + i*delta for floats (the sums are rounded one by one).", "quantifier": "all starts, limits, steps and integer widths", "why_tests_cant": "Needs the extremes of the integer types and all sign combinations.", "anchors": ["src/Conversion/ONNXToKrnl/Tensor/Range.cpp", "src/Dialect/ONNX/ONNXOps/Tensor/Range.cpp"]}
{"id": "C68", "title": "Transpose at run time", "statement": "The code emitted for Transpose yields a tensor whose dimension k is dimension perm[k] of the input (dimensions reversed without perm) and whose element at the permuted index is the element at the index, whether a view, block copies or element copies are emitted; every output element is written and no access is out of bounds. Excluded and refuted: negative entries of perm, which shape inference accepts.", "quantifier": "all ranks, shapes, permutations, element values and compile-time knowledge of the dimensions", "why_tests_cant": "The emitted code takes one of three paths with precomputed strides, depending on the permutation and on which dimensions are 1; tests cover a few permutations.", "anchors": ["src/Conversion/ONNXToKrnl/Tensor/Transpose.cpp", "src/Dialect/ONNX/ONNXOps/Tensor/Transpose.cpp"]}
{"id": "C69", "title": "DepthToSpace at run time", "statement": "The code emitted for DepthToSpace on a non-empty tensor whose depth is divisible by blocksize^2 yields, in mode DCR, out[b,c,y,z] = in[b, ((y mod bs)*bs + z mod bs)*D + c, y/bs, z/bs], and in mode CRD in[b, c*bs*bs + (y mod bs)*bs + z mod bs, y/bs, z/bs], for every index of an output of shape [B, D, H*bs, W*bs]. Excluded and refuted: an empty tensor (division by zero).", "quantifier": "all sizes, block sizes, modes, element values and compile-time knowledge of the dimensions", "why_tests_cant": "Two reshapes around a six-dimensional transpose; tests compare a few small tensors.", "anchors": ["src/Conversion/ONNXToKrnl/Tensor/DepthToSpace.cpp", "src/Conversion/ONNXToKrnl/ONNXToKrnlCommon.cpp:OnnxToKrnlBuilder", "src/Conversion/ONNXToKrnl/Tensor/Reshape.cpp"]}
{"id": "C70", "title": "SpaceToDepth at run time and its canceling with DepthToSpace", "statement": "The code emitted for SpaceToDepth yields out[b,k,h,w] = in[b, k/bs^2, h*bs + (k mod bs^2)/bs, w*bs + k mod bs] for every index, and it and DepthToSpace in mode CRD undo each other in both orders, so that the canonicalization that cancels such pairs agrees with the emitted code. Excluded and refuted: the channel order that ONNX defines (block position first), hence canceling with DepthToSpace in its default mode, and sizes known only at run time that the block size does not divide.", "quantifier": "all sizes, block sizes, element values and compile-time knowledge of the dimensions", "why_tests_cant": "The ONNX example has one channel, where the two orders agree; the other backend test is disabled.", "anchors": ["src/Conversion/ONNXToKrnl/Tensor/SpaceToDepth.cpp", "src/Dialect/ONNX/ONNXOps/Canonicalize.td:RemoveDepthToSpaceSpaceToDepthPattern", "src/Dialect/ONNX/ONNXOps/Canonicalize.td:RemoveSpaceToDepthDepthToSpacePattern"]}
{"id": "C71", "title": "Loop at run time", "statement": "The code emitted for Loop ends with the loop-carried values and scan outputs that ONNX defines: for loops with a trip count whose body returns its condition (every row of the scan outputs written, in order), and for loops whose condition changes, entered with a true condition and a positive trip count (no scan outputs). Excluded and refuted: a body that passes on one of its arguments at a later position (an overwritten buffer is read), a loop with a changing condition that makes no iteration (results never written), a false condition with scan outputs (rows for iterations that did not take place), and loops without trip count, without condition, or with scan outputs and a changing condition (rejected).", "quantifier": "all bodies, trip counts, initial values and numbers of loop-carried values and scan outputs", "why_tests_cant": "Depends on which body outputs share a buffer with an argument and on the order of the copies, for any number of iterations.", "anchors": ["src/Conversion/ONNXToKrnl/ControlFlow/Loop.cpp"]}
{"id": "C72", "title": "Scan at run time", "statement": "The code emitted for Scan ends with the state and the scan outputs that ONNX defines, for default axes and directions. Excluded and refuted: a body that passes on a state at a later position, a scan output that is a state the iteration changes (the new state is stored), and inputs read backwards (read forwards).", "quantifier": "all bodies, states, scan inputs and sequence lengths", "why_tests_cant": "Depends on which body outputs share a buffer with an argument and on the order of the copies, for any number of iterations.", "anchors": ["src/Conversion/ONNXToKrnl/ControlFlow/Scan.cpp", "src/Dialect/ONNX/ONNXOps/ControlFlow/Scan.cpp"]}
{"id": "C73", "title": "Trip count derived from a counting loop", "statement": "When canonicalization replaces the maximum trip count of a Loop whose body counts up to a bound by the number of iterations it derives, the final loop-carried values and all rows of scan outputs stay the same: for constant bounds when the range is below 2^53, for bounds only known at run time when the range is positive and below 2^24 and the step is positive, in both cases when the counter does not overflow and the trip count is not also an initial value. Each condition is needed (refuted otherwise): a counter that overflows, ranges rounded in double or in single precision, an empty range or a negative step at run time, a trip count used as an initial value too; and a body that counts with the iteration number makes the compiler read operand -1.", "quantifier": "all loop bodies, bounds, steps, trip counts, carried values and scan outputs", "why_tests_cant": "Equality of two loops for any number of iterations and any body; depends on rounding and overflow for extreme bounds only.", "anchors": ["src/Dialect/ONNX/ONNXOps/Canonicalize.cpp:LoopOpRewriteMaxTripCountPattern"]}
{"id": "C74", "title": "LSTM lowering", "statement": "A compiled LSTM without clip and input_forget whose sequences all have the full length produces the Y, Y_h and Y_c of the ONNX equations, forward, reverse and bidirectional, with or without biases, peepholes and initial states and for any activation functions. False otherwise (refuted): sequence_lens shorter than the input, clip and input_forget are ignored.", "quantifier": "all sequence, batch, input and hidden sizes, directions, weights, biases, peepholes, initial states and activations; numbers of any type whose addition is associative and commutative", "why_tests_cant": "The state after every step depends on all steps before; needs induction over the sequence.", "anchors": ["src/Conversion/ONNXToKrnl/RNN/RNNBase.cpp:initializeIntermediateStates,stateToOutputForHiddenOrCell,emitXSliceAt,handleSequenceLens", "src/Conversion/ONNXToKrnl/RNN/RNNBase.hpp:ONNXRNNOpLowering", "src/Conversion/ONNXToKrnl/RNN/LSTM.cpp:calculateState,getWeightPack,getBiasPack", "src/Conversion/ONNXConversionCommon/RNN/LSTM.cpp:getActivationPack"]}
{"id": "C75", "title": "GRU lowering", "statement": "A compiled GRU without clip, for both values of linear_before_reset and for any sequence_lens within the input, leaves in Y_h the state of the ONNX equations at the end of each sequence and in Y the states inside each sequence, in the three directions. After the end of a sequence Y is zero as required when there is no initial state; with one, Y repeats the initial state there (refuted). clip is ignored (refuted).", "quantifier": "all sizes, lengths, directions, weights, biases, initial states and activations; numbers of any type whose addition is associative and commutative", "why_tests_cant": "The state after every step depends on all steps before and lengths differ per batch element; needs induction over the sequence.", "anchors": ["src/Conversion/ONNXToKrnl/RNN/RNNBase.cpp:initializeIntermediateStates,stateToOutputForHiddenOrCell,emitXSliceAt,handleSequenceLens", "src/Conversion/ONNXToKrnl/RNN/RNNBase.hpp:ONNXRNNOpLowering", "src/Conversion/ONNXToKrnl/RNN/GRU.cpp:calculateState,getActivationPack,getWeightPack,getBiasPack"]}
{"id": "C76", "title": "RNN lowering", "statement": "A compiled RNN without clip and sequence_lens produces the Y and Y_h of the ONNX equations in the three directions. sequence_lens stops the compiler on an assertion even when all sequences are full, and clip is ignored (both refuted).", "quantifier": "all sizes, directions, weights, biases, initial states and activations; numbers of any type", "why_tests_cant": "The state after every step depends on all steps before; needs induction over the sequence.", "anchors": ["src/Conversion/ONNXToKrnl/RNN/RNNBase.cpp:initializeIntermediateStates,stateToOutputForHiddenOrCell,emitXSliceAt,handleSequenceLens", "src/Conversion/ONNXToKrnl/RNN/RNNBase.hpp:ONNXRNNOpLowering", "src/Conversion/ONNXToKrnl/RNN/RNN.cpp:calculateState,getActivationPack,getWeightPack,getBiasPack"]}
{"id": "C77", "title": "NonMaxSuppression at run time", "statement": "A compiled NonMaxSuppression selects, for every batch and class, the boxes the ONNX definition selects when boxes are taken by descending score, for corners in any order or center format, and never writes outside the buffer it sized beforehand; in exact arithmetic, when the score threshold is given or all scores are positive and when no IOU falls between the threshold and the threshold shifted by the 1e-8 added to the union. False otherwise (refuted): with the default IOU threshold boxes that do not touch suppress each other, equal boxes of area below 1e-8 are all kept, and without a score threshold boxes with negative scores are dropped. The overlap of boxes with integer corners is the ratio of the unit squares covered.", "quantifier": "all numbers of batches, classes and boxes, all boxes, scores, thresholds and limits, all orders by descending score", "why_tests_cant": "The selection of a box depends on all selections before it, and the buffer size on all scores.", "anchors": ["src/Conversion/ONNXToKrnl/ObjectDetection/NonMaxSuppression.cpp:ONNXNonMaxSuppressionOpLowering,emitIOU,suppressByScores,tryToUnflip"]}
{"id": "C78", "title": "Loop schedules run each iteration once", "statement": "A krnl.iterate whose loops are blocked (any number of times), permuted, made parallel or unrolled runs its body once for every tuple of original indices, whatever the bounds and the tile sizes, also when a tile size does not divide the trip count; when the points of a block are left to a kernel or to vector code, it runs once for every start of a tile. Without permute the order is the one of the original loops. A permute that puts the points of a tile outside it is rejected. False otherwise (refuted): a block after a permute whose points only the iterate names loses all points but index 0; a nested iterate that carries values over a tile loop repeats iterations; the argument of the iterate for a block whose points are not iterated over is always 0; tile sizes of 2^32 and more wrap around.", "quantifier": "all bounds, all sequences of directives with all tile sizes and permutations", "why_tests_cant": "The schedules compose: each directive rewrites the nest produced by the ones before, and bounds depend on the indices of outer loops.", "anchors": ["src/Conversion/KrnlToAffine/ConvertKrnlToAffine.cpp:lowerIterateOp,interpretOperation,removeOps,LoopBodyMover", "src/Dialect/Krnl/Krnl.td:KrnlBlockOp,KrnlPermuteOp,KrnlIterateOp"]}
{"id": "C79", "title": "Quantization rounds, saturates and can be undone", "statement": "QuantizeLinear maps every element x to round(x / scale) + zero point, rounded to nearest with ties to even and saturated to the range of the 8 bit type; it is monotone; DequantizeLinear gives values in range back up to half a scale, and quantizing a dequantized value gives it back. DynamicQuantizeLinear computes scale and zero point from the smallest range that contains the data and 0, its result dequantizes up to half a scale, and 0 exactly. The emulated rounding is exact for floating-point numbers of every precision, and adding the zero point in floating point does not change the saturated result. False otherwise (refuted): a tensor of zeros makes DynamicQuantizeLinear divide 0 by 0; with fast math the multiplication by the reciprocal changes results; the option that disables zero points ignores a given zero point.", "quantifier": "all finite inputs, scales, zero points, signedness, precisions of floats", "why_tests_cant": "The emulation of rounding must be right for every bit pattern, and the error bounds concern all scales and data.", "anchors": ["src/Conversion/ONNXToKrnl/Quantization/QuantizeLinear.cpp:emitQuantizationLinearScalarParameters", "src/Conversion/ONNXToKrnl/Quantization/DynamicQuantizeLinear.cpp:emitDynamicQuantizationLinearScalarParametersFromMinMax", "src/Dialect/Mlir/DialectBuilder.cpp:MathBuilder::roundEvenEmulation,clip,cast", "src/Conversion/ONNXToKrnl/Math/Elementwise.cpp:emitScalarOpFor<ONNXDequantizeLinearOp>"]}
{"id": "C80", "title": "Quantized matrix products", "statement": "MatMulInteger computes the product of A and B minus their zero points (per tensor, per row of A, per column of B) modulo 2^32, exactly for up to 33025 columns. QLinearMatMul with a scale for A and a scale for each column of B (or one) gives the value of ONNX wherever that is inside the range of the 8 bit type, and a value congruent to it modulo 256 elsewhere. Rewriting QuantizeLinear(MatMul(DequantizeLinear, DequantizeLinear)) to QLinearMatMul keeps results inside the range. False otherwise (refuted): longer products overflow; QLinearMatMul wraps around instead of saturating; scales for the rows of A are applied to columns or rejected; the rewriting changes saturated results and makes programs without zero points uncompilable.", "quantifier": "all matrices of bytes, signedness, zero points and scales, all positions", "why_tests_cant": "Wrong elements only appear for particular combinations of values, scales and signedness.", "anchors": ["src/Conversion/ONNXToKrnl/Math/MatMulInteger.cpp:ONNXMatMulIntegerOpLowering", "src/Conversion/ONNXToKrnl/Math/QLinearMatMul.cpp:ONNXQLinearMatMulOpLowering", "src/Dialect/ONNX/DialectBuilder.cpp:OnnxBuilder::getOrCastToI8", "src/Dialect/ONNX/Transforms/Recompose.cpp:RecomposeQLinearMatMulFromQuantizeLinearPattern"]}
{"id": "C81", "title": "Rewriting Reshape operations", "statement": "Optimisation keeps the results of Reshape: two Reshapes become one with the same final shape when entries of the target known only at run time are positive; a Reshape removed as an identity, or with allowzero dropped, gives the same shape for data without zero dims; MatMul of a Reshape rewritten to a Reshape of the MatMul gives the same elements and shape when the last dim of A is static. False otherwise (refuted): run-time entries 0 or -1 make the fused Reshape fail; with zero dims the removed Reshape and the dropped allowzero change shapes; with two dynamic last dims the rewritten MatMul has operands that do not fit.", "quantifier": "all shapes, targets, partially known types and element values", "why_tests_cant": "The rewriting looks only at types and constants; the shapes on which it goes wrong appear at run time.", "anchors": ["src/Dialect/ONNX/ONNXOps/Canonicalize.cpp:FuseTwoReshapesPattern", "src/Dialect/ONNX/ONNXOps/Canonicalize.cpp:RewriteReshapeAllowZeroPattern", "src/Dialect/ONNX/ONNXOps/Canonicalize.td:SwapReshapeMatMulPattern", "src/Dialect/ONNX/ONNXOps/OpHelper.cpp:isIdentityReshape"]}
{"id": "C82", "title": "Rewriting Transpose and Concat operations", "statement": "Optimisation keeps the results of Transpose and Concat: two Transposes, also with an elementwise operation between them, become one with the composed permutation; identity Transposes are removed; Transpose of Concat (axis not negative) becomes Concat of Transposes; Cast of Concat becomes Concat of Casts; nested Concats along one axis are flattened and a Concat of one operand is that operand; one operand with a static zero along the axis is removed. False otherwise (refuted): with two operands to remove, a Concat loses an operand that has elements, or an index is out of range, and a Concat of only such an operand is left with none; a negative axis is an index out of range or is not found in the permutation.", "quantifier": "all permutations, numbers of operands, shapes, axes and element values", "why_tests_cant": "The indices of the removed operands are only wrong for particular positions and numbers of empty operands.", "anchors": ["src/Dialect/ONNX/ONNXOps/Canonicalize.cpp:RecomposeConcatPattern", "src/Dialect/ONNX/ONNXOps/Canonicalize.cpp:RemoveDimZeroInputInConcatPattern", "src/Dialect/ONNX/ONNXOps/Canonicalize.cpp:RemoveEmptyInputInConcatPattern", "src/Dialect/ONNX/ONNXOps/Canonicalize.cpp:getIndexOfAxisInPerm", "src/Dialect/ONNX/ONNXOps/OpHelper.cpp:CombinedTransposePattern", "src/Dialect/ONNX/ONNXOps/OpHelper.cpp:IsIdentityPermuteVector", "src/Dialect/ONNX/ONNXOps/Canonicalize.td:SwapTransposeConcatPattern"]}
{"id": "C83", "title": "Rewriting shape computations", "statement": "Optimisation keeps the results of shape computations: Unsqueeze of an expanded scalar (axes not negative), Slice of an expanded scalar (result dims at the axes static), Dim of Reshape (run-time entries positive), Dim of Transpose, Where(Equal(c, k), x, c) for a Concat of dims and constants (k negative, equal lengths), a one-element Slice of a Concat, and default or negative Transpose permutations. False otherwise (refuted): a negative Unsqueeze axis puts the 1 at another place or reads past the dims; starts or ends known only at run time put -2^63 in a shape; Dim of a Reshape with a run-time entry of 0 gives 0; a Where whose Equal compares another Concat is rewritten as if it were the same, 0 passes as a negative constant although a dim may be 0, and a constant of one element is indexed out of range.", "quantifier": "all shapes, ranks, axes, permutations, entries and constants", "why_tests_cant": "The wrong cases need negative axes, run-time entries of zero, or two Concats in one Where; each shape, axis and constant is another case.", "anchors": ["src/Dialect/ONNX/ONNXOps/Canonicalize.cpp:ReplaceUnsqueezeOfExpandRewritePattern", "src/Dialect/ONNX/ONNXOps/Canonicalize.cpp:ReplaceSliceOfExpandRewritePattern", "src/Dialect/ONNX/ONNXOps/Canonicalize.cpp:DimOpFromReshapeInputPattern", "src/Dialect/ONNX/ONNXOps/Canonicalize.cpp:RemoveWhereEqualPattern", "src/Dialect/ONNX/ONNXOps/Canonicalize.cpp:isAllNegativeSmallIntegerConstant"]}
{"id": "C84", "title": "Rewriting Pow, Split and recurrent operations", "statement": "Optimisation keeps the results: Pow with a constant integer exponent of 0 to 64 (one element, rank not above that of X) becomes products equal to the power, for any associative multiplication with a unit; RNN, GRU and LSTM of layout 1 become operations of layout 0 between transposes; sequence_lens is dropped for one sequence of full length (layout 0); equal Relu or LeakyRelu operations on all results of a Split become one before it. False otherwise (refuted): an exponent of one element with more dims than X gives a result of lower rank, exponent 0 with a dynamic shape and an infinite exponent are undefined behaviour; sequence_lens of one shorter sequence is dropped and the outputs change; with layout 1 the number of directions in initial_h is taken for the batch size; a Split without users reads the first of no users.", "quantifier": "all tensors, exponents, associative multiplications, sequence lengths, directions, weights and users of a Split", "why_tests_cant": "The exponent, the lengths and the shapes are data: each exponent takes another path through the squaring loop, and the wrong cases need particular types and lengths.", "anchors": ["src/Dialect/ONNX/ONNXOps/Canonicalize.cpp:PowToMulRewritePattern", "src/Dialect/ONNX/ONNXOps/OpHelper.cpp:hasIntegerPowerExponent", "src/Dialect/ONNX/ONNXOps/Canonicalize.cpp:RNNOpRewriteLayoutPattern", "src/Dialect/ONNX/ONNXOps/Canonicalize.cpp:RNNOpRewriteSeqLenPattern", "src/Dialect/ONNX/ONNXOps/Canonicalize.cpp:PullOpThroughSplitPattern"]}
{"id": "C85", "title": "Rewriting elementwise binary operations", "statement": "Optimisation keeps the results of elementwise binary operations: broadcasting from an axis as in ONNX 1 to 6 (axis not negative) becomes NumPy broadcasting after ones are appended to the second shape; an operation on a scalar constant and an expanded scalar constant, in either order, becomes the Expand of the operation on the scalars; an operation on a reshaped tensor and a scalar becomes the Reshape of the operation on the tensor, when the scalar has rank 0 or neither the tensor nor its Reshape has. False otherwise (refuted): a negative axis is accepted and the second operand gets more dims than the first; a tensor reshaped to rank 0 and a scalar of shape (1) give a result of rank 0.", "quantifier": "all functions of two arguments, shapes, axes and values", "why_tests_cant": "Every pair of ranks and every axis is another case of broadcasting.", "anchors": ["src/Dialect/ONNX/ONNXOps/Canonicalize.cpp:BinaryOpBroadcastAxisPattern", "src/Dialect/ONNX/ONNXOps/Canonicalize.cpp:PropagateScalarConstantExpandPattern", "src/Dialect/ONNX/ONNXOps/Canonicalize.cpp:PropagateReshapeThroughBinaryOpPattern", "src/Dialect/ONNX/ONNXOps/OpHelper.cpp:isScalarTensor"]}
{"id": "C86", "title": "Rewriting normalizations", "statement": "Optimisation keeps the results of normalizations: InstanceNormalization equals the LayerNormalization over the spatial dims with scale and bias unsqueezed; GroupNormalization of ONNX 18 equals its pipeline of Reshape, LayerNormalization and Reshape for any number of groups that divides the channels; GroupNormalization of ONNX 21 does when there are as many groups as channels in a group; an addition to a LayerNormalization without bias and with one use becomes its bias when what is added broadcasts to the shape of the input. False otherwise (refuted): with any other number of channels the scale and bias of GroupNormalization 21 are reshaped to a wrong number of elements; an addend that enlarges the shape is accepted as bias; so is an addition to the mean instead of the normalized tensor.", "quantifier": "all normalizing functions of the elements normalized together, all shapes with positive dims, all values", "why_tests_cant": "Ranks, group counts and channel counts are unbounded; tests with as many groups as channels per group, or ONNX 18, pass.", "anchors": ["src/Dialect/ONNX/ONNXOps/Canonicalize.cpp:RemoveInstanceNormPattern", "src/Dialect/ONNX/ONNXOps/Canonicalize.cpp:ONNXGroupNormalizationCommon", "src/Dialect/ONNX/ONNXOps/Canonicalize.cpp:PropagateBiasIntoLayerNormRewritePattern", "src/Dialect/ONNX/ONNXOps/OpHelper.hpp.inc:operandOfOpDefinedBy"]}
{"id": "C87", "title": "Signatures reported by a compiled model", "statement": "For every list of entry points, omInputSignature and omOutputSignature of an entry point name return exactly the JSON text listing the element types, dims and names of the inputs (outputs) of the first entry point with that name, even when names are prefixes of each other, and a null pointer for any other name; provided no argument is bfloat16, names contain no quote, backslash, zero or element type between spaces, and input names contain no @. False otherwise (refuted): with @ in an input name the text returned has no final zero; bfloat16 is not quoted; an element type between spaces within a name gets quotes; quotes in names are not escaped.", "quantifier": "all lists of entry points, argument types (tensors and nested sequences), dims and names", "why_tests_cant": "Names are arbitrary strings; tests use names like x and input_0.", "anchors": ["src/Conversion/ONNXToKrnl/ConvertONNXToKrnl.cpp:ONNXEntryPointLowering", "src/Conversion/KrnlToLLVM/KrnlEntryPoint.cpp:recordEntryPointSignatures", "src/Conversion/KrnlToLLVM/ConvertKrnlToLLVM.cpp:genSignatureFunction"]}
{"id": "C88", "title": "Equal on strings", "statement": "Equal on two strings is true exactly when the first is a prefix of the second; hence it is equality when the second is not longer than the first, and two strings are equal iff it is true in both orders. It is not equality in general (refuted): \"cat\" equals \"category\" but not conversely, and the empty string equals everything.", "quantifier": "all pairs of zero-terminated strings", "why_tests_cant": "Tests compare equal strings, or strings that differ before the end of the first.", "anchors": ["src/Conversion/ONNXToKrnl/Math/Elementwise.cpp:emitScalarOpFor<ONNXEqualOp>", "src/Conversion/KrnlToLLVM/KrnlStrncmp.cpp:KrnlStrncmpOpLowering"]}
{"id": "C89", "title": "Shapes given to inputs by options", "statement": "For every list of settings INPUT_ID:D1x...xDn (an index, a range or -1 for all inputs; -1 for an unknown dim), the text given to --shapeInformation (and to the UB and LB options) is read back exactly, the first setting of an input counting; each input of known rank gets the dims of its own setting, else of the setting for all inputs, in its first dims, and keeps the others. IMPORTER_FORCE_DYNAMIC makes exactly the named dims unknown, a setting for all inputs going first, and then --shapeInformation does not count for that input. Text that does not follow the format is not refused (refuted): without a colon the dims are also read as the index, what follows a number is ignored, a range that goes down names no input, extra dims are dropped.", "quantifier": "all lists of settings, inputs, ranks and dims", "why_tests_cant": "Settings interact by order, range and -1; tests try a few texts.", "anchors": ["src/Support/TypeUtilities.cpp:parseShapeInformation", "src/Builder/ModelInputShaper.cpp:reshape", "src/Builder/ModelInputShaper.cpp:forceShape"]}
{"id": "C90", "title": "Verification of input tensors", "statement": "With --verifyInputTensors, for every model whose inputs are tensors of known rank other than string and bfloat16, and bounds for inputs and dims that exist, a call is accepted exactly when the number of tensors, their data types, ranks and dims are those of the model (unknown dims: not negative) and every dim keeps to the upper and lower bounds of its input and of all inputs; otherwise it returns NULL with errno EINVAL. False for other inputs (refuted): the data type of a string input is not checked, an input of unknown rank accepts scalars only, models with sequence or bfloat16 inputs do not compile with the checks, nor does a bound for all inputs when an input has fewer dims.", "quantifier": "all input types, bound options and lists of run-time tensors", "why_tests_cant": "Bad inputs are unbounded in number; tests try one or two.", "anchors": ["src/Conversion/KrnlToLLVM/KrnlEntryPoint.cpp:emitVerificationCodeForInputTensors", "src/Conversion/KrnlToLLVM/KrnlEntryPoint.cpp:emitVerificationCodeForDimensionBoundOfInputTensors", "src/Conversion/KrnlToLLVM/KrnlToLLVMHelper.cpp:equalOrFailed"]}
{"id": "C91", "title": "Scaling by a constant moves into the constants of an attention layer", "statement": "For every graph in which a product of tensors is multiplied by (over any commutative ring) or divided by (over any field) a scalar constant, the rewrite that scales the constants of X*A + B (or Gemm) under any chain of reshaping operations gives the same scaled product, and every other use of a value in the graph sees the same value, when the product itself has no other use; the move of the scalar constant keeps definitions before uses when nothing before the inner product uses it. False otherwise (refuted): other uses of the product see the scaled product, integer division does not distribute, and the constant may be moved after one of its uses.", "quantifier": "all graphs of the matched form, shapes, values, scalars and blocks", "why_tests_cant": "Values, shapes and uses are unbounded; tests check one graph as text.", "anchors": ["src/Dialect/ONNX/ONNXOps/Canonicalize.cpp:PropagateConstantScalingInAttentionLayerPattern", "src/Dialect/ONNX/ONNXOps/Canonicalize.cpp:matchShapeAddMatMul"]}
{"id": "C92", "title": "Trilu, Hardmax and LRN at run time", "statement": "For every input of any shape of the ranks the operators allow: Trilu keeps the elements on its side of diagonal k and sets the others to zero, provided k + row fits 64 bits; Hardmax sets one at the first of the greatest values along its axis (named from the front or the back) and zero elsewhere, and every line has exactly one such position; LRN on f32 elements adds the squares of exactly the channels from c - floor((size-1)/2) to c + ceil((size-1)/2) inside the tensor, in channel order, and reads nothing outside the tensor. False otherwise (refuted): with k near 2^63 the sum with the row wraps and Trilu keeps elements, and LRN on other element types does not compile.", "quantifier": "all shapes, data, diagonals, axes and sizes", "why_tests_cant": "Shapes, diagonals, axes and sizes are unbounded; tests use small tensors and default attributes.", "anchors": ["src/Conversion/ONNXToKrnl/Math/Trilu.cpp:ONNXTriluOpLowering", "src/Conversion/ONNXToKrnl/Math/Hardmax.cpp:emitArgmax", "src/Conversion/ONNXToKrnl/Math/Hardmax.cpp:ONNXHardmaxOpLowering", "src/Conversion/ONNXToKrnl/Math/LRN.cpp:ONNXLRNOpLowering"]}
{"id": "C93", "title": "Sequence operators at run time", "statement": "For every sequence and position counted from either end: SequenceAt gives the tensor at the position, SequenceLength the number of tensors, SequenceEmpty a sequence without tensors; SequenceErase of the first tensor gives the others in order; SequenceInsert into an empty sequence gives the sequence of the new tensor; and the exact content left by SequenceInsert is known for every sequence and position. False otherwise (refuted for every such sequence): SequenceInsert into a non-empty sequence leaves places of the result that were never stored, at every position; SequenceErase of a tensor between the first and the last loses all tensors before it; SequenceErase of the last tensor of two or more (also the default) stores outside the result.", "quantifier": "all sequences, tensors and positions", "why_tests_cant": "Sequences and positions are unbounded; the upstream tests of insertion are disabled.", "anchors": ["src/Conversion/ONNXToKrnl/Sequence/SequenceInsert.cpp:ONNXSequenceInsertOpLowering", "src/Conversion/ONNXToKrnl/Sequence/SequenceErase.cpp:ONNXSequenceEraseOpLowering", "src/Conversion/ONNXToKrnl/Sequence/SequenceAt.cpp:ONNXSequenceAtOpLowering", "src/Conversion/ONNXToKrnl/Sequence/SequenceLength.cpp:ONNXSequenceLengthOpLowering", "src/Conversion/KrnlSeqToMemref/KrnlSeqStore.cpp:KrnlSeqStoreOpLowering"]}
{"id": "C94", "title": "Clip and the fusion of Clip operations", "statement": "For every value and every choice of present or missing bounds, the compiled Clip raises the value to the lower bound and then lowers it to the upper bound. Two Clip operations in a row are replaced by one that gives the same result for every value if, and only if, the second lower bound does not exceed the first upper bound or the second upper bound does not exceed it either (missing bounds never matter). The rewrite does not test this: for ranges apart, in that order, it gives the wrong bound for every value (refuted).", "quantifier": "all values and bounds, present or missing", "why_tests_cant": "Values and bounds are unbounded; tests fuse one pair of overlapping ranges.", "anchors": ["src/Dialect/ONNX/ONNXOps/Canonicalize.td:FuseConsecutiveClipsPattern", "src/Dialect/ONNX/ONNXOps/Canonicalize.cpp:maxOrDefault", "src/Dialect/ONNX/ONNXOps/Canonicalize.cpp:minOrDefault", "src/Conversion/ONNXToKrnl/Math/Elementwise.cpp:emitScalarOpFor<ONNXClipOp>"]}
{"id": "C95", "title": "UpsampleAndPad at run time and its rewriting", "statement": "For every rank, non-empty shape, choice of strides and non-negative pads about the last dimensions (present or missing): the operation is accepted exactly when the attributes fit the rank, the result has the size (d-1)*stride+1+begin+end in each dimension, every element of the input is in place i*stride+begin and all others are zero; the rewrite to the input itself or to Pad applies exactly when every stride is one and gives the same result. False otherwise (refuted): an input with a dimension of size 0 gives a negative size for every stride of two or more without pads, and negative pads are accepted but store outside the result.", "quantifier": "all ranks, shapes, data, strides and pads", "why_tests_cant": "Ranks, shapes, strides and pads are unbounded; tests check a few shapes as text.", "anchors": ["src/Conversion/ONNXToKrnl/Additional/UpsampleAndPad.cpp:ONNXUpsampleAndPadOpLowering", "src/Dialect/ONNX/ONNXOps/Additional/UpsampleAndPad.cpp:ONNXUpsampleAndPadOpShapeHelper::computeShape", "src/Dialect/ONNX/ONNXOps/Additional/UpsampleAndPad.cpp:ONNXUpsampleAndPadOp::verify", "src/Dialect/ONNX/ONNXOps/Canonicalize.td:ConvertUpsampleAndPadToPadPattern", "src/Dialect/ONNX/ONNXOps/OpHelper.cpp:createFullPadsForAllDims"]}
