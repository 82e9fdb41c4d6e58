{
"C01": {
"status": "proved",
"note": "compile-time default strides and runtime omTensorCreate strides"
},
"C02": {
"status": "proved",
"note": ""
},
"C03": {
"status": "proved",
"note": "any number of stride vectors, any sign"
},
"C04": {
"status": "proved",
"note": "for positive dimensions; finding: for empty transposed constants an assertion fires (C04_empty_transposed_asserts_refuted)"
},
"C05": {
"status": "proved",
"note": ""
},
"C06": {
"status": "proved",
"note": ""
},
"C07": {
"status": "proved",
"note": ""
},
"C08": {
"status": "proved",
"note": "unary, binary, Where and constant comparison; finding: allEqual on an empty splat compares the unused splat value (C08_allEqual_empty_refuted)"
},
"C09": {
"status": "proved",
"note": "for a non-empty split axis; finding: splitting an axis of dimension 0 divides by zero (C09_split_zero_axis_refuted)"
},
"C11": {
"status": "proved",
"note": "for non-negative pads; finding: negative pads (legal ONNX) are not handled (C11_negative_pads_refuted)"
},
"C12": {
"status": "proved",
"note": ""
},
"C13": {
"status": "partial",
"note": "proved for non-negative indices; for negative indices the property is false (C13_negative_index_refuted)"
},
"C14": {
"status": "proved",
"note": "for every thread count and schedule, axes without duplicates; finding: duplicate axes trip an assertion"
},
"C15": {
"status": "proved",
"note": "existence of a run, same result for all thread counts and interleavings, tiles partition the work list"
},
"C16": {
"status": "proved",
"note": "generic in the element arithmetic; operands of rank >= 1"
},
"C39": {
"status": "proved",
"note": "rank > 0; finding: rank 0 divides by zero"
},
"C40": {
"status": "proved",
"note": ""
},
"C10": {
"status": "proved",
"note": "literal parameters; dims < 2^31 and not (empty axis with negative step); findings refute both excluded cases"
},
"C18": {
"status": "proved",
"note": "omTensorSort and the built-in quick sort, for every rand() sequence; qsort_r/qsort_s are represented by the contract comparison_sort. NaN values are outside value_order."
},
"C19": {
"status": "partial",
"note": "C19_topk_partial: k distinct best indices, sorted on request; equals the ONNX result when values are distinct (C19_topk_distinct). The tie-break by lower index is false on the heap path (C19_ties_refuted)."
},
"C20": {
"status": "partial",
"note": "Proved for the flat case and along an axis, for element types whose byte equality and order form a strict total order (integer types; not floats with -0.0/NaN), Y requested together with indices when an axis is given. Refuted: axis without indices output, absent outputs passed as empty buffers, slices of rank >= 2 compared column-major."
},
"C27": {
"status": "proved",
"note": "lowering (general and min/max-free) and shape inference; six excluded uses refuted; hypothesis simplifier_ok on MLIR's simplifyAffineExpr, which is not modelled"
},
"C28": {
"status": "proved",
"note": "binary64 arithmetic from Flocq; false beyond 2^53 (C28_large_refuted)"
},
"C21": {
"status": "proved",
"note": "String and int64 lookups are exact for every dictionary, every valid bucket sort and every fuel for which construction succeeds, and safe for every other key. Refuted: compiler and target with different char signedness; int64 keys of 20 characters (<= -10^18), which the runtime truncates."
},
"C22": {
"status": "proved",
"note": "The termination claim is false: the dictionaries {\"a\",\"c\"} and {1,3} have no table for any number of steps. Proved: the search of one bucket stops at the first hash value that works; dictionaries without first-hash collisions are always built."
},
"C41": {
"status": "proved",
"note": "int64 categories: exact for every input. String categories: exact unless a category is a proper prefix of the input (refuted otherwise). Repeated categories refuted."
},
"C29": {
"status": "proved",
"note": "Every mix of static and dynamic dimensions, any number of operands and ranks. Dimensions that are dynamic and 0 at run time are excluded: with ? = 0 and ? = 1 the code computes 1 instead of 0 (refuted)."
},
"C30": {
"status": "proved",
"note": "For every answer of the dimension analysis that is sound at run time."
},
"C42": {
"status": "proved",
"note": "Standard and unidirectional broadcasting; soundness of the analysis used to rule out broadcasting is a hypothesis on its answers only."
},
"C43": {
"status": "proved",
"note": "Iteration space of the SIMD loop generator: exact without the full-SIMD flag; with it, coverage with fewer than VL positions past the end (the overrun is proved to happen)."
},
"C24": {
"status": "proved",
"note": "All words; the round trip is the identity on all 65536 words, NaNs included."
},
"C25": {
"status": "proved",
"note": "All words, portable branch (the branches using F16C or ARM instructions call hardware). IEEE float multiplication is Flocq's."
},
"C26": {
"status": "proved",
"note": "The nearest-even claim is false because of double rounding (refuted with 1 + 2^-11 + 2^-40). Proved: the result is the half rounding of the float rounding, is correct for doubles that are floats, and always faithful."
},
"C35": {
"status": "proved",
"note": "All histories of allowed calls, all allocation-failure schedules. Ownership given twice, replacing an owned buffer by itself and lists with duplicates are refuted."
},
"C34": {
"status": "proved",
"note": "Per axis, all sizes. Floor mode and SAME are exact; ceil mode is characterised, and its empty last window and the VALID+ceil size are refuted."
},
"C44": {
"status": "proved",
"note": "Any rank, padding, stride, element type. Undilated in both modes; dilation two in floor mode and dilated ceil-mode windows inside the input under alignment; the remaining dilated cases and the empty ceil-mode window are refuted."
},
"C45": {
"status": "proved",
"note": "Any rank, group count, stride, dilation, padding, element type and operations."
},
"C31": {
"status": "proved",
"note": "All ranks, targets and partial knowledge, for any set of dims the analysis finds equal; tensors with an empty dim and allowzero=1 are refuted."
},
"C32": {
"status": "proved",
"note": "All dims and numbers of outputs; even splits are those of ONNX; uneven ones add up when static but are not the ONNX sizes, and dynamic uneven ones never add up (refuted, with the out-of-bounds read)."
},
"C33": {
"status": "proved",
"note": "All shapes and axis lists, negative included. Squeezing a dim that is not one is accepted (refuted)."
},
"C46": {
"status": "proved",
"note": "All shapes and axes, any element type."
},
"C47": {
"status": "proved",
"note": "All shapes, axes, numbers of inputs, any element type, with the Split/Concat round trip."
},
"C36": {
"status": "proved",
"note": "All histories of the symbol table. Lookup finds the outermost binding; without shadowing this is lexical scoping, with shadowing it is not (refuted)."
},
"C48": {
"status": "proved",
"note": "All graphs with nested subgraphs and calls of any depth, for any operator semantics that treats omitted trailing inputs as empty. Types and attributes are not modelled. Undefined names, shadowing, calls omitting outputs and empty optional inputs of Dropout and Slice are refuted."
},
"C49": {
"status": "proved",
"note": "All node lists; the end-to-end theorem is for graphs without subgraphs and calls. Values captured by subgraphs, and the error code for unsortable models, are refuted."
},
"C50": {
"status": "proved",
"note": "All version tables in decreasing order and all opsets."
},
"C23": {
"status": "proved",
"note": "mmap and read paths, histories, threads; refuted: failed read leaves dangling pointer, truncated mapping, use after unload, early address, threads on the read path."
},
"C51": {
"status": "proved",
"note": "Packing, run-time addresses, alignment, unload; refuted: alignment above page size, old file not removed."
},
"C37": {
"status": "proved",
"note": "Expressions of any depth; element arithmetic, folding in wide numbers, and lowering on bit patterns. Refuted: hidden overflow, Abs through double, Clip default bounds, Mod corner cases, int64 overflow. Arithmetic on unsigned tensors is rejected by the arith verifier and modelled as not compiling."
},
"C38": {
"status": "proved",
"note": "Trees with broadcasting, static/dynamic/unranked types, wide constants, expansion bound; any history. Refuted for removal of neutral constants at unranked type (reachable by the patterns; whether the greedy driver picks that order is not modelled). Floating point, where reassociation changes rounding, is out of scope. Division etc. may occur in the expression but is not folded (see C37)."
},
"C52": {
"status": "proved",
"note": "Explicit bound on the length of any history; graphs are taken as the trees they unfold to."
},
"C17": {
"status": "proved",
"note": "Small-step model of the scrub workers with batches as fetched by the code; creation split at the mutex. Two refutations show the documented caller obligations are needed. What strides and transformers compute is C13-C15; the 64-bit id counter is unbounded."
},
"C53": {
"status": "proved",
"note": "Statement includes the conditions; each is shown necessary by a _refuted theorem with a concrete program and run. Hash-table order is replaced by insertion order; what the per-operator shape helpers say is a hypothesis (HelperTrue; the helpers are C29-C34, C45-C47)."
},
"C54": {
"status": "proved",
"note": "Statement includes the exclusion, which is refuted by C54_axis_of_size_one_refuted. Logarithms are exact; floating-point rounding of the sums is not modelled (addition is any commutative monoid)."
},
"C55": {
"status": "proved",
"note": "Statement includes the exclusions, each refuted by a theorem with a witness."
},
"C56": {
"status": "proved",
"note": "Statement includes the exclusions, each refuted by a theorem with a witness."
},
"C57": {
"status": "proved",
"note": "Statement includes the exclusions, each refuted by a theorem with a witness."
},
"C58": {
"status": "proved",
"note": ""
},
"C59": {
"status": "proved",
"note": "Statement includes the exclusion, refuted by a theorem with a witness."
},
"C60": {
"status": "proved",
"note": "Statement includes the exclusion, refuted by a theorem with a witness. NaN is not covered."
},
"C61": {
"status": "proved",
"note": "Statement includes the exclusions, each refuted by a theorem with a witness."
},
"C62": {
"status": "proved",
"note": "Statement includes the exclusions, each refuted by a theorem with a witness. Floating-point rounding under reassociation is not modelled."
},
"C63": {
"status": "proved",
"note": "Statement includes the exclusions, each refuted by a theorem with a witness. Floating-point rounding under reassociation is not modelled."
},
"C64": {
"status": "proved",
"note": "Statement includes the exclusions, each refuted by a theorem with a witness. Parallel loops and floating-point contraction (fma rounding) are not modelled."
},
"C65": {
"status": "proved",
"note": "Statement includes the exclusion, refuted by a theorem with a witness. Parallel loops and fma rounding are not modelled."
},
"C66": {
"status": "proved",
"note": "Statement includes the exclusions, each refuted by a theorem with a witness."
},
"C67": {
"status": "proved",
"note": "Statement includes the exclusions, each refuted by a theorem with a witness."
},
"C68": {
"status": "proved",
"note": "Statement includes the exclusion, refuted by a theorem with a witness."
},
"C69": {
"status": "proved",
"note": "Statement includes the exclusion, refuted by a theorem with a witness."
},
"C70": {
"status": "proved",
"note": "Statement includes the exclusions, each refuted by a theorem with a witness; the channel order differs from the ONNX definition."
},
"C71": {
"status": "proved",
"note": "Statement includes the exclusions, each refuted by a theorem with a witness."
},
"C72": {
"status": "proved",
"note": "Statement includes the exclusions, each refuted by a theorem with a witness."
},
"C73": {
"status": "proved",
"note": "Statement includes the exclusions, each refuted by a theorem with a witness. Uses the standard library axioms of the reals (through Flocq)."
},
"C74": {
"status": "proved",
"note": "Statement includes the exclusions, each refuted by a theorem with a witness."
},
"C75": {
"status": "proved",
"note": "Statement includes the exclusions, each refuted by a theorem with a witness."
},
"C76": {
"status": "proved",
"note": "Statement includes the exclusions, each refuted by a theorem with a witness."
},
"C77": {
"status": "proved",
"note": "Statement includes the exclusions, each refuted by a theorem with a witness. Arithmetic is exact (rationals)."
},
"C78": {
"status": "proved",
"note": "Statement includes the exclusions, each refuted by a theorem with a witness. MLIR tilePerfectlyNested and permuteLoops are modelled; threads and unrolling are not."
},
"C79": {
"status": "proved",
"note": "Statement includes the exclusions, each refuted by a theorem with a witness. Exact rationals for the operators; floating-point numbers of any precision for the rounding and for one quantized element. NaN, infinities and overflow are not modelled."
},
"C80": {
"status": "proved",
"note": "Statement includes the exclusions, each refuted by a theorem with a witness. Rank 2; the f32 operations are exact rationals."
},
"C81": {
"status": "proved",
"note": "Statement includes the exclusions, each refuted by a theorem with a witness."
},
"C82": {
"status": "proved",
"note": "Statement includes the exclusions, each refuted by a theorem with a witness."
},
"C83": {
"status": "proved",
"note": "Statement includes the exclusions, each refuted by a theorem with a witness."
},
"C84": {
"status": "proved",
"note": "Statement includes the exclusions, each refuted by a theorem with a witness. Floating-point products are not associative: the theorem on Pow covers integers, also modulo 2^n, and exact numbers."
},
"C85": {
"status": "proved",
"note": "Statement includes the exclusions, each refuted by a theorem with a witness."
},
"C86": {
"status": "proved",
"note": "Statement includes the exclusions, each refuted by a theorem."
},
"C87": {
"status": "proved",
"note": "Statement includes the exclusions, each refuted by a theorem."
},
"C88": {
"status": "proved",
"note": "Statement says what the operation computes; equality in general is refuted."
},
"C89": {
"status": "proved",
"note": "Refusal of other texts is refuted."
},
"C90": {
"status": "proved",
"note": "Statement includes the exclusions, each refuted by a theorem. The JSON parser is not modelled."
},
"C91": {
"status": "proved",
"note": "Statement includes the exclusions, each refuted by a theorem. Exact arithmetic: rounding is not modelled."
},
"C92": {
"status": "proved",
"note": "Statement includes the exclusions, each refuted by a theorem. Elements are abstract: Hardmax compares through a key into Z, so NaN is not covered; the closing arithmetic of LRN (bias, alpha, beta) is one abstract function."
},
"C93": {
"status": "proved",
"note": "Statement includes the exclusions, each refuted by a theorem over all such sequences. Tensors are values: copies and their release are not modelled."
},
"C94": {
"status": "proved",
"note": "Exact condition proved both ways; the unconditional rewrite is refuted. Elements are ordered numbers: NaN and the sign of zero are not covered."
},
"C95": {
"status": "proved",
"note": "Statement includes the exclusions, each refuted by a theorem. Parallel loops are run in order; the stores are to distinct places."
}
}