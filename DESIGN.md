# Formal model of onnx-mlir in Rocq (Coq 8.16.1)

Source under study: `/repo` (onnx-mlir, C/C++), read as text only.

## Layout

`rocq/theories/` (logical name `Verif`). One group of files per area:

* `Util*.v`            list / integer lemmas, no modelling content;
* `<Area>Spec.v`       the small independent specification (what ONNX / NumPy / C says);
* `<Area>Model.v`      Gallina transcription of the code, each definition citing file:lines;
* `<Area>Proofs.v`     lemmas;
* `<Area>Props.v`      the property theorems: `Theorem … . Proof. exact … Qed.`, a non-vacuity
                       `Example` beside each, and `Print Assumptions`.

## Conventions

* Loops become structural recursion / folds / explicit fuel with a distinct out-of-fuel result.
* Failing `assert`, undefined behaviour and out-of-bounds accesses are a distinct outcome
  (`None` / `UB` / `Fault`), never a default value.
* Machine integers: 64-bit index arithmetic is modelled in `Z` unless the property is about
  overflow; where wrap-around or truncation is part of the claim (hashes, casts, bit-level float
  conversion, int64 min/max) it is modelled explicitly.
* A property false of the faithful model is stated and refuted: `…_refuted : exists …`, and the
  strongest true companion is proved.  Such entries are findings about the code.

## Trusted base

* Coq 8.16.1's kernel, including its `vm_compute` conversion.
* The transcription from C++ to Gallina, cited line by line in the model files.
* The specifications (`*Spec.v`, and the definitions next to the theorems in `*Props.v`).
* Axioms: only those of Coq's standard library reals, and only for the theorems listed under
  "Assumptions" below.  They enter through Flocq's definition of IEEE rounding.  No axiom is
  declared here.

External code that is represented by a contract rather than modelled:

* MLIR's `simplifyAffineExpr` (hypothesis `simplifier_ok` of C27);
* the answers of the dimension analysis (hypotheses of C30, C31, C42);
* the C library: `qsort_r`/`qsort_s` (contract `comparison_sort`), `rand` (an arbitrary
  sequence), `mmap`/`read`/`open` (an arbitrary oracle), `malloc` (may fail at any call);
* MLIR's `Operation::walk` and attribute dictionaries (C17), its greedy rewrite driver (C38,
  C52: any order of application is allowed), the mutexes and `parallelFor` (a schedule);
* LLVM's and the hardware's integer and IEEE float arithmetic (`Z` modulo 2^n, Flocq).

## What is modelled and what is not

Modelled, with the files of `/repo` that each model file cites:

<!-- GENERATED sources -->
* `StridesModel.v` (30 definitions): `Strides.hpp`, `StridesRange.hpp`, `src/Dialect/ONNX/ElementsAttr/Strides.cpp`
* `OMTensorLayoutModel.v` (6 definitions): `src/Runtime/OMTensor.inc`
* `ElementsModel.v` (54 definitions): `DisposableElementsAttr.cpp`, `src/Dialect/ONNX/ElementsAttr/ElementsAttrBuilder.cpp`
* `ReduceModel.v` (14 definitions): `ElementsAttrBuilder.cpp`
* `SliceModel.v` (8 definitions): `IndexExpr.cpp`, `src/Dialect/ONNX/ONNXOps/Tensor/Slice.cpp`, `src/Dialect/ONNX/Transforms/ConstProp.cpp`
* `SortModel.v` (19 definitions): `src/Runtime/OMSort.c`, `src/Runtime/OMTopK.c`
* `UniqueModel.v` (15 definitions): `src/Runtime/OMUnique.c`
* `FloatDivModel.v` (7 definitions): `src/Dialect/Mlir/IndexExpr.cpp`
* `IndexExprModel.v` (63 definitions): `IndexExprDetail.cpp`, `IndexExprDetail.hpp`, `src/Dialect/Mlir/IndexExpr.cpp`
* `HashModel.v` (30 definitions): `src/Conversion/ONNXToKrnl/ML/CategoryMapper.cpp`, `src/Conversion/ONNXToKrnl/PerfectHash.cpp`, `src/Runtime/OMIndexLookup.c`
* `BroadcastModel.v` (27 definitions): `DialectBuilder.cpp`, `DialectBuilder.hpp`, `src/Conversion/ONNXToKrnl/Math/Elementwise.cpp`, `src/Dialect/Mlir/DialectBuilder.hpp.inc`, `src/Dialect/ONNX/ONNXOps/ShapeHelper.cpp`
* `SmallFPModel.v` (24 definitions): `src/Runtime/OMTensor.inc`, `src/Support/SmallFPConversion.c`
* `OwnershipModel.v` (27 definitions): `src/Runtime/OMTensor.inc`, `src/Runtime/OMTensorList.inc`
* `ConvModel.v` (36 definitions): `Conv.cpp`, `IndexExpr.cpp`, `NNHelper.cpp`, `OpHelper.cpp`, `Pooling.cpp`, `src/Dialect/ONNX/ONNXOps/NN/NNHelper.cpp.inc`
* `ShapeOpsModel.v` (43 definitions): `Reshape.cpp`, `Squeeze.cpp`, `Unsqueeze.cpp`, `src/Conversion/ONNXToKrnl/Tensor/Concat.cpp`, `src/Conversion/ONNXToKrnl/Tensor/Flatten.cpp`, `src/Conversion/ONNXToKrnl/Tensor/Split.cpp`
* `NodeOrderModel.v` (16 definitions): `src/Builder/ImportONNXUtils.cpp`
* `ImportModel.v` (38 definitions): `src/Builder/FrontendDialectTransformer.cpp`, `src/Builder/ImportONNXUtils.cpp`, `src/Builder/SymbolTable.hpp`
* `ExtConstModel.v` (41 definitions): `KrnlGlobal.cpp`, `src/Conversion/KrnlToLLVM/ConvertKrnlToLLVM.cpp`, `src/Runtime/OMExternalConstant.c`
* `FoldModel.v` (30 definitions): `ConstProp.td`, `DisposableElementsAttr.cpp`, `ElementsAttrBuilder.cpp`, `Elementwise.hpp`, `ONNXToKrnlCommon.hpp`, `WideNum.hpp`, `src/Conversion/ONNXToKrnl/Math/Elementwise.cpp`, `src/Dialect/Mlir/DialectBuilder.cpp`, `src/Dialect/ONNX/Transforms/ConstProp.cpp`
* `RewriteModel.v` (28 definitions): `ElementsAttrBuilder.cpp`, `ONNXOps.cpp`, `ONNXOps.td`, `OpHelper.cpp`, `src/Dialect/ONNX/Transforms/ConstProp.cpp`, `src/Dialect/ONNX/Transforms/ConstProp.td`
* `PoolModel.v` (47 definitions): `DisposableElementsAttr.cpp`, `DisposableGarbageCollector.cpp`, `DisposablePool.hpp`, `src/Dialect/ONNX/ElementsAttr/DisposablePool.cpp`
* `DimModel.v` (77 definitions): `ONNXDimAnalysis.hpp`, `OpHelper.cpp`, `RemoveSameONNXDim.cpp`, `src/Dialect/ONNX/ONNXDimAnalysis.cpp`
* `LoopModel.v` (7 definitions): `src/Dialect/Krnl/DialectBuilder.cpp`, `src/Dialect/Mlir/DialectBuilder.cpp`
* `CumSumModel.v` (9 definitions): `src/Conversion/ONNXToKrnl/Math/CumSum.cpp`
* `GatherLoopModel.v` (11 definitions): `GatherElements.cpp`, `ScatterElements.cpp`, `src/Conversion/ONNXToKrnl/ONNXToKrnlCommon.cpp`, `src/Conversion/ONNXToKrnl/Tensor/Gather.cpp`, `src/Dialect/Mlir/DialectBuilder.cpp`, `src/Dialect/ONNX/ONNXOps/Tensor/Gather.cpp`, `src/Dialect/ONNX/ONNXOps/Tensor/GatherND.cpp`
* `ScatterLoopModel.v` (4 definitions): `ScatterND.cpp`, `src/Conversion/ONNXToKrnl/Tensor/ScatterElements.cpp`
* `CopyLoopModel.v` (10 definitions): `src/Conversion/ONNXToKrnl/Tensor/OneHot.cpp`, `src/Conversion/ONNXToKrnl/Tensor/Pad.cpp`, `src/Conversion/ONNXToKrnl/Tensor/ReverseSequence.cpp`, `src/Conversion/ONNXToKrnl/Tensor/Tile.cpp`, `src/Dialect/ONNX/ONNXOps/Tensor/OneHot.cpp`, `src/Dialect/ONNX/ONNXOps/Tensor/Pad.cpp`, `src/Dialect/ONNX/ONNXOps/Tensor/Tile.cpp`
* `NonZeroLoopModel.v` (5 definitions): `src/Conversion/ONNXToKrnl/Tensor/NonZero.cpp`
* `ArgLoopModel.v` (7 definitions): `src/Conversion/ONNXToKrnl/ONNXToKrnlCommon.cpp`, `src/Conversion/ONNXToKrnl/Tensor/ArgMinMax.cpp`, `src/Dialect/ONNX/ONNXOps/Tensor/ArgMinMax.cpp`
* `ReduceLoopModel.v` (15 definitions): `src/Conversion/ONNXToKrnl/Math/Reduction.cpp`, `src/Dialect/ONNX/ONNXOps/Math/Reduction.cpp`
* `SimdReduceModel.v` (30 definitions): `DialectBuilder.hpp`, `IndexExprBuilder.cpp`, `ONNXToKrnlCommon.cpp`, `src/Conversion/ONNXToKrnl/Math/Reduction.cpp`, `src/Dialect/Krnl/DialectBuilder.cpp`, `src/Dialect/Mlir/DialectBuilder.cpp`, `src/Dialect/Mlir/DialectBuilder.hpp.inc`
* `KrnlMatmulModel.v` (30 definitions): `src/Conversion/KrnlToAffine/KrnlMatmul.cpp`, `src/Conversion/ONNXToKrnl/Math/MatMul.cpp`, `src/Dialect/Krnl/DialectBuilder.cpp`, `src/Dialect/Mlir/DialectBuilder.cpp`, `src/Dialect/Mlir/IndexExprBuilder.cpp`, `src/Dialect/ONNX/ONNXOps/Math/MatMul.cpp`
* `GemmLowerModel.v` (20 definitions): `KrnlCopyFromBuffer.cpp`, `src/Conversion/KrnlToAffine/KrnlCopyToBuffer.cpp`, `src/Conversion/ONNXToKrnl/Math/Gemm.cpp`, `src/Dialect/ONNX/ONNXOps/Math/Gemm.cpp`
* `CompressModel.v` (9 definitions): `src/Conversion/ONNXToKrnl/Tensor/Compress.cpp`
* `RangeLoopModel.v` (13 definitions): `src/Conversion/ONNXToKrnl/Tensor/Range.cpp`, `src/Dialect/ONNX/ONNXOps/Tensor/Range.cpp`
* `TransposeLoopModel.v` (18 definitions): `src/Conversion/KrnlToLLVM/KrnlMemcpy.cpp`, `src/Conversion/ONNXToKrnl/ONNXToKrnlCommon.cpp`, `src/Conversion/ONNXToKrnl/Tensor/Transpose.cpp`, `src/Dialect/ONNX/ONNXOps/Tensor/Transpose.cpp`
* `DepthSpaceModel.v` (3 definitions): `src/Conversion/ONNXToKrnl/ONNXToKrnlCommon.cpp`, `src/Conversion/ONNXToKrnl/Tensor/DepthToSpace.cpp`, `src/Dialect/ONNX/ONNXOps/Tensor/DepthToSpace.cpp`, `src/Dialect/ONNX/ONNXOps/Tensor/SpaceToDepth.cpp`
* `ControlModel.v` (20 definitions): `src/Conversion/ONNXToKrnl/ControlFlow/Loop.cpp`, `src/Dialect/ONNX/ONNXOps/ControlFlow/Scan.cpp`
* `FloatDiv32Model.v` (4 definitions): `src/Dialect/ONNX/ONNXOps/Canonicalize.cpp`
* `LoopTripModel.v` (11 definitions): `src/Dialect/ONNX/ONNXOps/Canonicalize.cpp`
* `RnnModel.v` (19 definitions): `GRU.cpp`, `RNN.cpp`, `RNNBase.cpp`, `src/Conversion/ONNXConversionCommon/RNN/LSTM.cpp`, `src/Conversion/ONNXToKrnl/RNN/RNNBase.hpp`
* `NmsModel.v` (9 definitions): `src/Conversion/ONNXToKrnl/ObjectDetection/NonMaxSuppression.cpp`
* `ScheduleModel.v` (31 definitions): `src/Conversion/KrnlToAffine/ConvertKrnlToAffine.cpp`
* `QuantModel.v` (20 definitions): `DynamicQuantizeLinear.cpp`, `src/Conversion/ONNXToKrnl/Math/Elementwise.cpp`, `src/Conversion/ONNXToKrnl/Quantization/QuantizeLinear.cpp`, `src/Dialect/Mlir/DialectBuilder.cpp`
* `QMatMulModel.v` (14 definitions): `QLinearMatMul.cpp`, `src/Conversion/ONNXToKrnl/Math/MatMulInteger.cpp`, `src/Dialect/ONNX/Transforms/Recompose.cpp`
* `ReshapeRewriteModel.v` (15 definitions): `src/Dialect/ONNX/ONNXOps/Canonicalize.cpp`, `src/Dialect/ONNX/ONNXOps/Canonicalize.td`, `src/Dialect/ONNX/ONNXOps/OpHelper.cpp`
* `ConcatRewriteModel.v` (17 definitions): `Canonicalize.td`, `OpHelper.cpp`, `src/Dialect/ONNX/ONNXOps/Canonicalize.cpp`
* `ShapeRewriteModel.v` (18 definitions): `Unsqueeze.cpp`, `src/Dialect/ONNX/ONNXOps/Canonicalize.cpp`
* `PowRnnModel.v` (22 definitions): `OpHelper.cpp`, `src/Dialect/ONNX/ONNXOps/Canonicalize.cpp`
* `BinaryRewriteModel.v` (10 definitions): `OpHelper.cpp`, `src/Dialect/ONNX/ONNXOps/Canonicalize.cpp`
* `NormRewriteModel.v` (6 definitions): `OpHelper.hpp`, `src/Dialect/ONNX/ONNXOps/Canonicalize.cpp`
* `SignatureModel.v` (19 definitions): `src/Conversion/KrnlToLLVM/ConvertKrnlToLLVM.cpp`, `src/Conversion/KrnlToLLVM/KrnlEntryPoint.cpp`, `src/Conversion/ONNXToKrnl/ConvertONNXToKrnl.cpp`, `src/Conversion/ONNXToKrnl/Math/Elementwise.cpp`
* `InputShapeModel.v` (36 definitions): `OpHelper.cpp`, `src/Builder/ModelInputShaper.cpp`, `src/Conversion/KrnlToLLVM/KrnlEntryPoint.cpp`, `src/Support/TypeUtilities.cpp`
* `AttentionModel.v` (5 definitions): `src/Dialect/ONNX/ONNXOps/Canonicalize.cpp`
* `TriluLoopModel.v` (6 definitions): `Hardmax.cpp`, `LRN.cpp`, `src/Conversion/ONNXToKrnl/Math/Trilu.cpp`
* `SeqOpsModel.v` (12 definitions): `Canonicalize.cpp`, `Canonicalize.td`, `Elementwise.cpp`, `KrnlSeqAlloc.cpp`, `KrnlSeqExtract.cpp`, `KrnlSeqStore.cpp`, `SequenceAt.cpp`, `SequenceEmpty.cpp`, `SequenceErase.cpp`, `SequenceInsert.cpp`, `SequenceLength.cpp`
* `UpsampleModel.v` (9 definitions): `Canonicalize.td`, `OpHelper.cpp`, `src/Conversion/ONNXToKrnl/Additional/UpsampleAndPad.cpp`, `src/Dialect/ONNX/ONNXOps/Additional/UpsampleAndPad.cpp`
<!-- END sources -->

Not modelled: the protobuf reader; ONNX operator verification; type inference other than the
shape helpers named below; the float parts of constant folding (only the element maps are
generic); lowering of operators other than those named below; the Krnl, Affine and LLVM
lowerings below the loops and index expressions named below; quantisation; the NNPA
accelerator; the driver, command line, Python and Java bindings; performance and memory use.

## Plan per property

Each row names the code that is modelled and the proof method.  The theorem names are in
`MANIFEST.json`.

| id | what is modelled | how it is proved |
|----|------------------|------------------|
| C01 | getDefaultStrides, getStridesPosition, omTensorCreate strides, computeElemOffset | induction on the shape; bijection = injective + surjective + bounds |
| C02 | unflattenIndex | induction from the innermost axis, both inverse directions |
| C03 | StridesIterator::operator++ (generic N) | invariant relating odometer state to the k-th row-major index |
| C04 | reshapeStrides incl. its assertions | block invariant: consumed prefix of both shapes has the same position function |
| C05 | restrideArray / readWideNums | from C03 |
| C06 | transposeDims/untransposeDims/transpose | permutation algebra |
| C07 | expandStrides/expand | index-wise equality |
| C08 | combine / where | from C03 and C07 |
| C09 | split / concat | row-major block decomposition |
| C10 | Slice computeShape literals + ElementsAttrBuilder::slice | arithmetic (lia/nia) per axis against an enumerative Python-slice spec |
| C11 | pad | index-wise |
| C12 | gather | index-wise |
| C13 | scatterND | fold of slice updates |
| C14 | reduce (sequential part) | multiset equality of visited positions |
| C15 | reduce tiling (fetchBatch/work) | partition lemma; any interleaving of disjoint writes |
| C16 | matMul | index-wise, batch broadcasting |
| C17 | DisposablePool: creation (split at the mutex), collection, scrub workers as small steps, close; modules as trees of operations | invariant over histories; per-entry phases as invariant over schedules; decreasing measure for termination; two refutations of the obligations dropped |
| C18 | quick_sort_custom with oracle pivots and explicit bounded stack | permutation + sortedness + stack bound by induction on the partition tree |
| C19 | heap, TopK | heap invariant; tie-break refuted |
| C20 | Unique | invariant of the slice table |
| C21, C22 | PerfectHash + OMIndexLookup at the bit level | construction invariant; termination refuted |
| C23 | OMExternalConstant: open, mmap and read paths, unload, several threads, as a state machine over an I/O oracle | invariants over histories and interleavings; five refutations |
| C24–C26 | SmallFPConversion at the bit level | Flocq rounding / direct arithmetic on bit fields |
| C27, C28 | IndexExpr expression builder; double-based division | denotational semantics; Flocq |
| C29, C30 | broadcast shape helper, loop collapsing | induction over operands / ranks |
| C31 | Reshape shape helper (literal, symbolic and dimension-analysis cases) | product arithmetic on partially known shapes |
| C32 | Split shape helper and the generated copy loops | prefix sums; element-wise; refutation for uneven dynamic splits |
| C33 | Squeeze/Unsqueeze shape helpers and axis normalisation | list induction, both inverse directions |
| C34 | convolution and pooling output size and auto-pad | arithmetic against the set of window positions |
| C35 | OMTensor/OMTensorList create, setters, destroy over an allocation table | invariant over call histories with failing allocations |
| C36 | SymbolMapping push/pop/bind/lookup | refinement to lexical scoping; refuted under shadowing |
| C37 | WideNum arithmetic, constant folding of the integer operators, the generated arith operations | wrap-around arithmetic per operator, induction over expressions |
| C38, C52 | ConstProp.td patterns, type construction of created operators, broadcasting | each step preserves the value at every index; lexicographic measure and explicit bound |
| C53 | ONNXDimAnalysis.cpp (classification, merging, offset relations, queries), areDims/getDims, RemoveSameONNXDim | invariant: all dimensions of a class have one value in the run; relations hold of the values; measure for the classification; concrete programs for the refutations, their hypotheses checked by verified boolean functions |
| C39, C40 | folded NonZero and Range | row-major enumeration; arithmetic |
| C41 | CategoryMapper lowering | from C21 plus comparison of the candidate |
| C42 | generated broadcast accesses of elementwise operators | index-wise |
| C43 | SIMD loop generator | partition of the iteration space |
| C44, C45 | pooling and convolution loop nests | loop bounds against the set of window pixels; sum over the window |
| C46, C47 | Flatten and Concat lowering | row-major index algebra |
| C48–C50 | FrontendDialectTransformer: node import, subgraphs, calls, symbol scopes, sorting, opset selection | induction over graphs; refinement; permutation and order invariants of the sort |
| C51 | packing of large constants to a file and run-time addressing | prefix-sum layout; read-back equality |
| C54 | CumSum.cpp (whole lowering), over a model of memrefs and krnl loops with never-written cells | invariant on the number of doubling steps: a cell holds the sum of a window of 2^k cells; concrete witness for the refutation |
| C55 | Gather.cpp, GatherElements.cpp, GatherND.cpp (lowerings), indicesAreNonNegativeConstants, safe index code | loop nest of stores to distinct cells; index lists split into prefix, tuple, suffix; GatherND: values appended in row-major order equal the enumeration of the output |
| C56 | ScatterElements.cpp, ScatterND.cpp (lowerings) | last-writer characterisation of a loop nest of stores; position of the last match in row-major order; witnesses for the refutations |
| C57 | Pad.cpp (lowering and shape helper) | loop nest of stores to distinct cells; per-dimension arithmetic; witnesses for the refutations |
| C58 | Tile.cpp, OneHot.cpp, ReverseSequence.cpp (lowerings and shape helpers) | loop nests of stores to distinct cells; OneHot: nested loops flattened into one over the indices and the depth |
| C59 | src/Conversion/ONNXToKrnl/Tensor/NonZero.cpp | counters as memrefs (LoopModel); invariant: each counter is the number of non-zero elements seen with that coordinate; the scan inverts the running sum, so each row is the sorted list of coordinates |
| C60 | src/Conversion/ONNXToKrnl/Tensor/ArgMinMax.cpp, getReductionMapping in ONNXToKrnlCommon.cpp | memrefs (LoopModel); invariant per output cell: it holds the fold of the update over the positions of its slice seen so far; the indices of a slice are met in ascending order |
| C61 | Conversion Math/Reduction.cpp 602-1065, dialect Math/Reduction.cpp 30-147 | Loops over a memory with uninitialised cells, axes operand absent/constant/run-time; proved equal to a fold over the filtered row-major index list; three exclusions refuted |
| C62 | emitFullSIMDReductionFor, simdReduceIE, forExplicitParallelLoopIE | lane-wise invariant over the vector loop, commutative monoid sums, chunks partition the index range; counterexamples by computation |
| C63 | ONNXReductionOpLoweringBase with enableSIMD: horizontal and shuffle reductions, dispatch | multi-reduction of VL rows by rounds of pairing (induction on log VL), blocks cover the output; dispatch falls back to C61/C62 |
| C64 | MatMul.cpp (lowering and shape), KrnlMatmul.cpp | model tile loops and krnl.matmul code generation; prove by an accumulation invariant per tile |
| C65 | Gemm.cpp (lowering and shape), KrnlCopyToBuffer.cpp, KrnlCopyFromBuffer.cpp, KrnlMatmul.cpp | model cache tiles, buffers and register tiles; prove with the accumulation invariant of C64 |
| C66 | Compress.cpp | model both loops with read and write counters; invariant over prefixes of the positions |
| C67 | Range.cpp (lowering and shape) | model the accumulator loop with two's complement and binary32 arithmetic |
| C68 | Transpose.cpp (lowering), Transpose.cpp (shape) | Model of view, block and element copies over partial memories; loop nests as iterated stores, strides by induction on the shape, blocked loops by range splitting. |
| C69 | DepthToSpace.cpp, ONNXToKrnlCommon.cpp (reshape, transpose) | Composition of the Reshape (C31) and Transpose (C68) models; equality of row-major offsets by ring. |
| C70 | SpaceToDepth.cpp, Canonicalize.td 1054-1072 | As C69; the pairs by composing the two theorems; ONNX channel order refuted by a run. |
| C71 | Loop.cpp (lowering) | Buffers with explicit sharing between body arguments and outputs; ONNX semantics as an inductive relation; induction on the trip count. |
| C72 | Scan.cpp (lowering) | As C71, with the copies in the other order. |
| C73 | Canonicalize.cpp 760-1010 | Loop operators with a small body language, meaning by C71's relation; the rewritten loop makes the same iterations, by induction on the iterations left; binary32 and binary64 division with Flocq. |
| C74 | RNN/LSTM.cpp, RNNBase.hpp, RNNBase.cpp | Buffers updated element by element, passes over time per direction; invariant of the passes against the recursive ONNX equations |
| C75 | RNN/GRU.cpp, RNNBase.cpp handleSequenceLens | Same invariant with per-batch lengths; the reset-first path through the intermediate buffer |
| C76 | RNN/RNN.cpp | Same invariant |
| C77 | ObjectDetection/NonMaxSuppression.cpp | Invariant of the nested loops against the greedy selection; overlap formulas over the rationals and against a count of unit squares |
| C78 | ConvertKrnlToAffine.cpp | Nests as lists of affine loops with symbolic bounds; invariant: the integer solutions of the bound constraints of the loops project one-to-one to the scheduled tuples, kept by tiling, permuting and dropping of unused point loops; traces enumerate the solutions once. Order by a simulation of the tiled trace. |
| C79 | QuantizeLinear, DynamicQuantizeLinear, DequantizeLinear, roundEvenEmulation | The emitted scalar code as functions on rationals; the rounding also on Flocq's FLT formats; error bounds from the definition of rounding. |
| C80 | MatMulInteger, QLinearMatMul, getOrCastToI8, Recompose QLinearMatMul | The emitted ONNX operations element by element with 32 bit wrap-around; sums by induction on the columns; congruences modulo 2^32 and 256. |
| C81 | Canonicalize.cpp 1476-1801, Canonicalize.td 715-756, OpHelper.cpp 479-520, 904-946 | Shape entries are constants or run-time values; the rewritings are functions on entries and types; ONNX Reshape is a relation between shapes, MatMul a relation between row-major buffers; induction over the entries and the dims |
| C82 | Canonicalize.cpp 94-143, 1806-1941, Canonicalize.td 499-502, 582-710, OpHelper.cpp 420-449 | Rewritings as functions on attributes and operand lists with erasure by index; Transpose, elementwise operations and Concat as relations between tensors; induction over the operands with the coordinate shifted along the axis |
| C83 | Canonicalize.cpp 258-280, 1300-1474, 1960-2039, 2111-2209, 2448-2552 | Rewritings as functions on lists of dims with distinct outcomes for no match and for undefined behaviour; the operations as relations between shapes; induction over the dims and operands |
| C84 | Canonicalize.cpp 1018-1241, 2556-2616, OpHelper.cpp 874-896 | Squaring loop with fuel and an invariant over any monoid; doubles as SpecFloat; transposes of the recurrent inputs and outputs against the definitions of C74-C76 with the attribute layout; induction over the users of a Split |
| C85 | Canonicalize.cpp 393-563, OpHelper.cpp 869-873 | Matching as functions on operands; operations as relations between tensors with the broadcasting of C29; scalars shown constant over the result |
| C86 | Canonicalize.cpp 2045-2103, 2216-2407 | Model the shapes and attributes of the operations created; prove by row-major arithmetic that the pipelines compute the normalizations of the specification; refute GroupNormalization 21, larger biases and the mean |
| C87 | ConvertONNXToKrnl.cpp 30-190, KrnlEntryPoint.cpp 622-686, ConvertKrnlToLLVM.cpp 418-475 | Model the construction, find-and-replace, splitting and lookup on character lists; prove the replacement passes distribute over separators; refute @, bfloat16, type words and quotes |
| C88 | Elementwise.cpp 1227-1254 | Model strlen and strncmp; characterise the result as the prefix order; refute equality |
| C89 | parseShapeInformation, ModelInputShaper | texts as lists of characters with stoi, getline, find and the map; decimal round trip, then induction on the settings |
| C90 | input verification in KrnlEntryPoint.cpp | checks as boolean functions of the input types, options and tensors; equivalence with the English condition |
| C91 | PropagateConstantScalingInAttentionLayerPattern | graphs with use flags evaluated over any ring or field; linearity of each operation, induction over the reshaping chain |
| C92 | Trilu.cpp, Hardmax.cpp, LRN.cpp (ONNXToKrnl/Math) | each emitted loop nest as an iteration over a memory; the argmax loop by an invariant giving, per line, a fold over that line; the LRN window as a filter of the channel range |
| C93 | Sequence*.cpp (ONNXToKrnl/Sequence), KrnlSeq*.cpp | a sequence as a one-dimensional memory of tensors; each copying loop by a lemma saying which places it stores |
| C94 | Canonicalize.td, Canonicalize.cpp, Elementwise.cpp | the scalar code and the fused bounds as functions on integers with optional bounds; linear arithmetic by cases |
| C95 | UpsampleAndPad.cpp (two files), Canonicalize.td, OpHelper.cpp | the loop nest as stores to distinct places of a memory set to zero; attributes aligned to the last dimensions by cases; the rewrite through the theorem about Pad |

## Assumptions

What `Print Assumptions` lists, by theorem (written by `tools/design.py` from the compiled
files):

<!-- GENERATED assumptions -->
* Closed under the global context, no axioms (469 theorems): `C01_default_strides_bijection`, `C01_default_strides_order`, `C01_numelems_asserts_dense`, `C01_runtime_strides_bijection`, `C02_unflatten_roundtrip`, `C03_strided_iteration`, `C04_constant_reshape`, `C04_contiguous_never_copies`, `C04_empty_transposed_asserts_refuted`, `C04_reshape_zero_copy`, `C05_readers_agree`, `C05_restride`, `C06_transpose`, `C06_transpose_roundtrip`, `C07_expand`, `C08_allEqual`, `C08_allEqual_empty_refuted`, `C08_binary`, `C08_equal`, `C08_operands_defined`, `C08_unary`, `C08_where`, `C09_concat`, `C09_split`, `C09_split_of_concat`, `C09_split_zero_axis_refuted`, `C10_empty_negative_step_faults`, `C10_empty_negative_step_refuted`, `C10_int32_sentinel_refuted`, `C10_slice`, `C10_slice_axis`, `C11_negative_pads_refuted`, `C11_pad`, `C12_gather`, `C13_negative_index_refuted`, `C13_scatterND_partial`, `C14_duplicate_axes_refuted`, `C14_reduce`, `C15_schedule_independent`, `C15_tiles_partition`, `C16_matmul`, `C16_matmul_defined_only_if`, `C17_after_pass`, `C17_closing_is_final`, `C17_collect`, `C17_collect_buffers`, `C17_create`, `C17_create_distinct`, `C17_handle_across_collection_refuted`, `C17_history_safe`, `C17_scrub`, `C17_scrub_ends`, `C17_unlisted_reference_refuted`, `C17_values_never_change`, `C18_quick_sort`, `C18_sort`, `C18_sort_builtin`, `C19_ties_refuted`, `C19_topk_distinct`, `C19_topk_partial`, `C20_axis_without_indices_refuted`, `C20_empty_buffer_refuted`, `C20_slice_order_refuted`, `C20_unique_axis`, `C20_unique_flat`, `C21_any_int64_safe`, `C21_any_string_safe`, `C21_char_signedness_refuted`, `C21_construction_never_faults`, `C21_int64_lookup`, `C21_long_int64_refuted`, `C21_string_lookup`, `C22_construction_int64_refuted`, `C22_construction_refuted`, `C22_distinct_first_hashes`, `C22_search_terminates`, `C23_address`, `C23_early_address_refuted`, `C23_history`, `C23_load_contents`, `C23_load_returns`, `C23_load_succeeds`, `C23_map_contents`, `C23_map_retry`, `C23_read_retry`, `C23_retry_refuted`, `C23_threads`, `C23_threads_refuted`, `C23_truncated_refuted`, `C23_unload`, `C23_unload_refuted`, `C27_i64_constant_refuted`, `C29_broadcast_shape`, `C29_static_rejected`, `C29_unidirectional`, `C29_zero_refuted`, `C30_collapse_valid`, `C30_flattened_access`, `C31_allowzero_refuted`, `C31_empty_dim_matched_refuted`, `C31_empty_tensor_refuted`, `C31_reshape_infer`, `C31_reshape_infer_unranked`, `C31_reshape_run`, `C32_explicit_sizes_unchecked_refuted`, `C32_split_copies`, `C32_split_dynamic_uneven_refuted`, `C32_split_even`, `C32_split_known_adds_up`, `C32_split_out_of_bounds_refuted`, `C32_split_uneven_refuted`, `C32_split_uneven_rejected`, `C33_squeeze`, `C33_squeeze_all`, `C33_squeeze_nonunit_refuted`, `C33_squeeze_size`, `C33_unsqueeze`, `C33_unsqueeze_rejects`, `C33_unsqueeze_size`, `C34_ceil_mode`, `C34_ceil_mode_empty_window_refuted`, `C34_explicit_pads`, `C34_same_pads`, `C34_valid_ceil_mode_refuted`, `C34_valid_pads`, `C35_allowed_calls_are_safe`, `C35_contents`, `C35_creation_succeeds`, `C35_duplicate_in_list_refuted`, `C35_failed_creation_leaves_nothing`, `C35_live_memory_is_accounted_for`, `C35_no_leak`, `C35_parts_are_disjoint`, `C35_replace_by_itself_refuted`, `C35_shared_owner_refuted`, `C36_lexical_scoping`, `C36_pop_restores`, `C36_shadowing_refuted`, `C36_symbol_table`, `C37_abs_refuted`, `C37_clip`, `C37_clip_lowering`, `C37_clip_refuted`, `C37_fold_meaning`, `C37_fold_run`, `C37_int64_overflow_refuted`, `C37_lowering`, `C37_lowering_defined`, `C37_mod_refuted`, `C37_modular_chain`, `C37_overflow_refuted`, `C37_single`, `C37_single_defined`, `C37_sixty_four`, `C38_broadcast_spec`, `C38_moving`, `C38_ranked`, `C38_static`, `C38_types`, `C38_unranked_removal_refuted`, `C39_nonzero`, `C39_scalar_refuted`, `C40_range`, `C41_duplicate_refuted`, `C41_int64_categories`, `C41_prefix_refuted`, `C41_string_categories`, `C42_element_access`, `C42_no_broadcast_sound`, `C43_full_simd`, `C43_full_simd_overruns_refuted`, `C43_simd_loop`, `C44_average_denominator`, `C44_ceil_dilation_refuted`, `C44_ceil_mode_denominator_refuted`, `C44_dilation3_refuted`, `C44_dilation_phase_refuted`, `C44_floor_window_nonempty`, `C44_mixed_dilation_refuted`, `C44_pool_reduce`, `C44_pool_window`, `C44_pool_window_dilated_inside`, `C44_pool_window_dilation2`, `C45_convolution`, `C45_convolution_integer`, `C46_flatten`, `C46_flatten_axis`, `C46_flatten_infer`, `C47_concat`, `C47_concat_shape`, `C47_split_then_concat`, `C48_call_outputs_refuted`, `C48_dropout`, `C48_empty_optional_refuted`, `C48_import`, `C48_shadowing_refuted`, `C48_undefined_input_refuted`, `C49_captured_refuted`, `C49_check`, `C49_check_empty_refuted`, `C49_keeps_order`, `C49_not_sortable`, `C49_sort`, `C49_sort_then_import`, `C49_unsortable_reported_refuted`, `C50_exact`, `C50_version`, `C51_alignment_refuted`, `C51_file`, `C51_old_file_refuted`, `C51_run_time`, `C51_threshold`, `C51_unload`, `C52_no_infinite_history`, `C52_rewriting_ends`, `C53_add_constant_refuted`, `C53_add_int8_refuted`, `C53_analysis_does_not_end_refuted`, `C53_analysis_ends`, `C53_broadcast_last_sound`, `C53_classes_sound`, `C53_classification_ends`, `C53_classification_succeeds`, `C53_different_ranks_refuted`, `C53_expand_out_of_bounds_refuted`, `C53_expand_refuted`, `C53_merged_dims_equal`, `C53_offset_sound`, `C53_reshape_copy_refuted`, `C53_same_dim_sound`, `C53_same_dim_symmetric`, `C53_same_shape_sound`, `C53_same_unknown_sound`, `C53_same_with_offset_sound`, `C53_sequence_lengths_refuted`, `C53_three_operands_refuted`, `C54_axis_of_size_one_refuted`, `C54_cumsum`, `C55_gather`, `C55_gather_elements`, `C55_gather_elements_safe`, `C55_gather_nd`, `C55_gather_nd_negative_refuted`, `C55_gather_safe`, `C55_safe_warning_refuted`, `C56_reduction_refuted`, `C56_scatter_elements`, `C56_scatter_nd`, `C56_scatter_nd_negative_refuted`, `C56_scatter_nd_scalar_update_refuted`, `C56_scatter_nd_tuple_size_refuted`, `C57_constant`, `C57_edge`, `C57_large_reflect_refuted`, `C57_negative_pad_refuted`, `C57_reflect`, `C57_shape`, `C57_wrap_refuted`, `C58_one_hot`, `C58_reverse_sequence`, `C58_tile`, `C59_first_row`, `C59_matrix_refuted`, `C59_rank_one`, `C59_rows`, `C60_arg`, `C60_select_last_index_refuted`, `C61_empty_axes_refuted`, `C61_empty_runtime_axes_refuted`, `C61_mean_of_empty_refuted`, `C61_reduce`, `C62_full_reduction`, `C62_parallel_abs_max_refuted`, `C62_parallel_from_49`, `C62_parallel_full_reduction`, `C62_parallel_one_refuted`, `C62_parallel_preprocessed`, `C62_parallel_short_refuted`, `C62_scalar_refuted`, `C62_sequential_full_reduction`, `C63_duplicate_axes_refuted`, `C63_noop_refuted`, `C63_reduce_simd`, `C64_batch_of_one_refuted`, `C64_dynamic_batch_refuted`, `C64_matmul`, `C64_matmul_order`, `C64_static_zero_refuted`, `C64_vector_order_refuted`, `C65_gemm`, `C65_zero_beta_refuted`, `C66_axis`, `C66_flat`, `C66_long_condition_refuted`, `C66_scalar_refuted`, `C67_empty_refuted`, `C67_integer`, `C67_overflow_refuted`, `C68_default`, `C68_negative_refuted`, `C68_transpose`, `C69_crd`, `C69_dcr`, `C69_empty_refuted`, `C70_block_first_refuted`, `C70_crd_pair`, `C70_default_pair_refuted`, `C70_indivisible_refuted`, `C70_space_to_depth`, `C71_counted`, `C71_counted_false`, `C71_false_scan_refuted`, `C71_passed_on_refuted`, `C71_unsupported_refuted`, `C71_while`, `C71_zero_trips_refuted`, `C72_backwards_refuted`, `C72_old_state_refuted`, `C72_passed_on_refuted`, `C72_scan`, `C74_clip_refuted`, `C74_input_forget_refuted`, `C74_lengths_refuted`, `C74_lstm_right`, `C75_clip_refuted`, `C75_gru_right`, `C75_gru_states`, `C75_padding_refuted`, `C76_clip_refuted`, `C76_lengths_refuted`, `C76_rnn_right`, `C77_default_score_refuted`, `C77_default_threshold_refuted`, `C77_memory`, `C77_nms_right`, `C77_overlap_counts_squares`, `C77_small_boxes_refuted`, `C78_argument_of_unused_block_refuted`, `C78_arguments_once`, `C78_block_after_permute_refuted`, `C78_body_under_last_loop`, `C78_carried_tile_refuted`, `C78_each_iteration_once`, `C78_large_tile_refuted`, `C78_order`, `C78_tile_starts`, `C79_all_zero_refuted`, `C79_disable_refuted`, `C79_dynamic`, `C79_dynamic_defined`, `C79_dynamic_round_trip`, `C79_monotone`, `C79_quantize`, `C79_requantize`, `C79_round_half_even`, `C79_round_trip`, `C80_matmul_integer`, `C80_matmul_integer_exact`, `C80_matmul_overflow_refuted`, `C80_qlinear`, `C80_qlinear_in_range`, `C80_recompose`, `C80_recompose_refuted`, `C80_row_scale_refuted`, `C80_saturate_refuted`, `C81_allowzero`, `C81_allowzero_refuted`, `C81_fuse`, `C81_fuse_allowzero`, `C81_fuse_run`, `C81_fuse_runtime_refuted`, `C81_identity`, `C81_identity_refuted`, `C81_swap`, `C81_swap_refuted`, `C82_cast`, `C82_fuse_transposes`, `C82_fuse_unary`, `C82_identity`, `C82_negative_perm_refuted`, `C82_recompose`, `C82_remove_empty`, `C82_remove_refuted`, `C82_remove_zero`, `C82_swap`, `C82_swap_negative_refuted`, `C83_dim_of_reshape`, `C83_dim_of_reshape_refuted`, `C83_dim_of_transpose`, `C83_permutation`, `C83_slice`, `C83_slice_dynamic_refuted`, `C83_slice_of_concat`, `C83_unsqueeze`, `C83_unsqueeze_negative_refuted`, `C83_where`, `C83_where_refuted`, `C84_layout`, `C84_pow`, `C84_pow_refuted`, `C84_sequence_lens`, `C84_sequence_lens_refuted`, `C84_split`, `C84_split_unused_refuted`, `C84_transpose`, `C85_axis`, `C85_expand`, `C85_negative_axis_refuted`, `C85_reshape`, `C85_reshape_refuted`, `C86_bias`, `C86_bias_checked`, `C86_bias_shape_refuted`, `C86_group_norm_18`, `C86_group_norm_21`, `C86_group_norm_21_refuted`, `C86_instance_norm`, `C86_mean_refuted`, `C87_at_sign_refuted`, `C87_bf16_refuted`, `C87_quote_refuted`, `C87_signature`, `C87_type_word_refuted`, `C88_both`, `C88_equal`, `C88_equal_refuted`, `C88_prefix`, `C89_forced`, `C89_format_refuted`, `C89_information`, `C89_shape`, `C90_compile_refuted`, `C90_string_refuted`, `C90_unranked_refuted`, `C90_verify`, `C91_div`, `C91_integer_refuted`, `C91_mul`, `C91_order`, `C91_order_refuted`, `C91_other_uses`, `C91_used_refuted`, `C92_hardmax`, `C92_hardmax_one`, `C92_lrn`, `C92_lrn_other_types_refuted`, `C92_lrn_region`, `C92_trilu`, `C92_trilu_wraps_refuted`, `C93_at`, `C93_empty`, `C93_erase_first`, `C93_erase_last_refuted`, `C93_erase_middle_refuted`, `C93_insert_empty`, `C93_insert_exact`, `C93_insert_refuted`, `C93_length`, `C94_clip`, `C94_fuse_exact`, `C94_fuse_overlap`, `C94_fuse_refuted`, `C95_canonical`, `C95_canonical_applies`, `C95_empty_refuted`, `C95_negative_pads_refuted`, `C95_shape`, `C95_upsample`, `C95_verify`
* Axioms `ClassicalDedekindReals.sig_forall_dec`, `ClassicalDedekindReals.sig_not_dec`, `Classical_Prop.classic`, `FunctionalExtensionality.functional_extensionality_dep` (37 theorems): `C24_bf16_to_f32`, `C24_f32_to_bf16`, `C24_round_trip`, `C25_f16_to_f32`, `C25_f32_to_f16`, `C25_round_trip`, `C26_faithful`, `C26_floats_exact`, `C26_nearest_refuted`, `C26_rounds_twice`, `C27_clamp_inverted_refuted`, `C27_literal_min_value_refuted`, `C27_lowering_sound`, `C27_lowering_sound_plain`, `C27_mod_of_negative_refuted`, `C27_release_propagation_refuted`, `C27_shape_inference_sound`, `C27_sub_of_min_refuted`, `C28_ceilDiv_exact`, `C28_floorDiv_exact`, `C28_large_refuted`, `C67_float`, `C67_rounding_refuted`, `C73_constants`, `C73_deterministic`, `C73_double_refuted`, `C73_empty_refuted`, `C73_float_refuted`, `C73_iteration_number_refuted`, `C73_negative_step_refuted`, `C73_overflow_refuted`, `C73_run_time`, `C73_shared_refuted`, `C79_monotone_float`, `C79_quantize_float`, `C79_reciprocal_refuted`, `C79_round_half_even_float`
<!-- END assumptions -->
