Util
TensorSpec
TensorLemmas
StridesModel
StridesProofs
StridesReshape
OMTensorLayoutModel
OMTensorLayoutProofs
StridesProps
ElementsModel
ElementsSpec
ElementsBase
ElementsViews
ElementsConcat
ElementsPad
ElementsGather
ElementsProps
ReduceModel
ReduceProofs
MatMulProofs
ReduceProps
SliceModel
SliceSpec
SliceProofs
SliceProps
SortModel
SortSpec
SortProofs
TopKProofs
SortProps
UniqueModel
UniqueSpec
UniqueProofs
UniqueLoop
UniqueAxis
UniqueProps
FloatDivModel
FloatDivProofs
IndexExprModel
IndexExprSpec
IndexExprProofs
IndexExprPlain
IndexExprProps
HashModel
HashSpec
HashProofs
HashProps
BroadcastModel
BroadcastSpec
BroadcastProofs
BroadcastFlat
BroadcastProps
SmallFPModel
SmallFPSpec
SmallFPBase
SmallFPProofs
SmallFPHalf
SmallFPProps
OwnershipModel
OwnershipSpec
OwnershipProofs
OwnershipProps
ConvModel
ConvSpec
ConvProofs
ConvProps
ShapeOpsModel
ShapeOpsSpec
ShapeOpsProofs
ShapeOpsCopies
ShapeOpsAxes
ShapeOpsProps
NodeOrderModel
NodeOrderSpec
NodeOrderProofs
ImportModel
ImportSpec
ImportProofs
ImportOrder
ImportProps
ExtConstModel
ExtConstSpec
ExtConstProofs
ExtConstPack
ExtConstProps
FoldSpec
FoldModel
FoldProofs
FoldChain
FoldProps
RewriteSpec
RewriteModel
RewriteProofs
RewriteSteps
RewriteProps
RewriteEndProps
PoolSpec
PoolModel
PoolProofs
PoolProps
DimSpec
DimModel
DimProofs
DimProps
DimEnd
DimCases
LoopModel
LoopProofs
CumSumSpec
CumSumModel
CumSumProofs
CumSumProps
GatherLoopSpec
GatherLoopModel
GatherLoopProofs
GatherLoopProps
ScatterLoopSpec
ScatterLoopModel
ScatterLoopProofs
ScatterLoopProps
CopyLoopSpec
CopyLoopModel
CopyLoopProofs
CopyLoopProps
NonZeroLoopModel
NonZeroLoopProofs
NonZeroLoopProps
ArgLoopModel
ArgLoopProofs
ArgLoopProps
ReduceLoopSpec
ReduceLoopModel
ReduceLoopProofs
ReduceLoopProps
SimdReduceModel
SimdReduceProofs
SimdShuffleProofs
SimdDispatchProofs
SimdReduceProps
KrnlMatmulModel
KrnlMatmulProofs
MatmulTileProofs
MatmulLowerProofs
MatmulLowerProps
GemmLowerModel
GemmLowerProofs
GemmLowerProps
CompressModel
CompressProofs
CompressProps
RangeLoopModel
RangeLoopProps
TransposeLoopModel
TransposeLoopProofs
TransposeLoopProps
DepthSpaceModel
DepthSpaceProofs
DepthSpaceProps
ControlSpec
ControlModel
ControlProofs
ControlProps
FloatDiv32Model
FloatDiv32Proofs
LoopTripSpec
LoopTripModel
LoopTripProofs
LoopTripProps
RnnSpec
RnnModel
RnnProofs
RnnProps
NmsSpec
NmsModel
NmsProofs
NmsGeometry
NmsProps
ScheduleSpec
ScheduleModel
ScheduleProofs
ScheduleInv
ScheduleRun
ScheduleOrder
ScheduleProps
QuantSpec
QuantModel
QuantProofs
QuantFloat
QuantReciprocal
QuantProps
QMatMulSpec
QMatMulModel
QMatMulProofs
QMatMulProps
ReshapeRewriteSpec
ReshapeRewriteModel
ReshapeRewriteProofs
ReshapeRewriteProps
ConcatRewriteSpec
ConcatRewriteModel
ConcatRewriteProofs
ConcatRewriteProps
ShapeRewriteSpec
ShapeRewriteModel
ShapeRewriteProofs
ShapeRewriteProps
PowRnnSpec
PowRnnModel
PowRnnProofs
PowRnnProps
BinaryRewriteSpec
BinaryRewriteModel
BinaryRewriteProofs
BinaryRewriteProps
NormRewriteSpec
NormRewriteModel
NormRewriteProofs
NormRewriteProps
SignatureSpec
SignatureModel
SignatureProofs
SignatureProps
InputShapeSpec
InputShapeModel
InputShapeProofs
InputShapeProps
AttentionSpec
AttentionModel
AttentionProofs
AttentionProps
TriluLoopSpec
TriluLoopModel
TriluLoopProofs
TriluLoopProps
SeqOpsSpec
SeqOpsModel
SeqOpsProofs
SeqOpsProps
UpsampleSpec
UpsampleModel
UpsampleProofs
UpsampleProps
