-Q theories Verif
theories/Util.v
theories/TensorSpec.v
theories/TensorLemmas.v
theories/StridesModel.v
theories/StridesProofs.v
theories/StridesReshape.v
theories/OMTensorLayoutModel.v
theories/OMTensorLayoutProofs.v
theories/StridesProps.v
theories/ElementsModel.v
theories/ElementsSpec.v
theories/ElementsBase.v
theories/ElementsViews.v
theories/ElementsConcat.v
theories/ElementsPad.v
theories/ElementsGather.v
theories/ElementsProps.v
theories/ReduceModel.v
theories/ReduceProofs.v
theories/MatMulProofs.v
theories/ReduceProps.v
theories/SliceModel.v
theories/SliceSpec.v
theories/SliceProofs.v
theories/SliceProps.v
theories/SortModel.v
theories/SortSpec.v
theories/SortProofs.v
theories/TopKProofs.v
theories/SortProps.v
theories/UniqueModel.v
theories/UniqueSpec.v
theories/UniqueProofs.v
theories/UniqueLoop.v
theories/UniqueAxis.v
theories/UniqueProps.v
theories/FloatDivModel.v
theories/FloatDivProofs.v
theories/IndexExprModel.v
theories/IndexExprSpec.v
theories/IndexExprProofs.v
theories/IndexExprPlain.v
theories/IndexExprProps.v
theories/HashModel.v
theories/HashSpec.v
theories/HashProofs.v
theories/HashProps.v
theories/BroadcastModel.v
theories/BroadcastSpec.v
theories/BroadcastProofs.v
theories/BroadcastFlat.v
theories/BroadcastProps.v
theories/SmallFPModel.v
theories/SmallFPSpec.v
theories/SmallFPBase.v
theories/SmallFPProofs.v
theories/SmallFPHalf.v
theories/SmallFPProps.v
theories/OwnershipModel.v
theories/OwnershipSpec.v
theories/OwnershipProofs.v
theories/OwnershipProps.v
theories/ConvModel.v
theories/ConvSpec.v
theories/ConvProofs.v
theories/ConvProps.v
theories/ShapeOpsModel.v
theories/ShapeOpsSpec.v
theories/ShapeOpsProofs.v
theories/ShapeOpsCopies.v
theories/ShapeOpsAxes.v
theories/ShapeOpsProps.v
theories/NodeOrderModel.v
theories/NodeOrderSpec.v
theories/NodeOrderProofs.v
theories/ImportModel.v
theories/ImportSpec.v
theories/ImportProofs.v
theories/ImportOrder.v
theories/ImportProps.v
theories/ExtConstModel.v
theories/ExtConstSpec.v
theories/ExtConstProofs.v
theories/ExtConstPack.v
theories/ExtConstProps.v
theories/FoldSpec.v
theories/FoldModel.v
theories/FoldProofs.v
theories/FoldChain.v
theories/FoldProps.v
theories/RewriteSpec.v
theories/RewriteModel.v
theories/RewriteProofs.v
theories/RewriteSteps.v
theories/RewriteProps.v
theories/RewriteEndProps.v
theories/PoolSpec.v
theories/PoolModel.v
theories/PoolProofs.v
theories/PoolProps.v
theories/DimSpec.v
theories/DimModel.v
theories/DimProofs.v
theories/DimProps.v
theories/DimEnd.v
theories/DimCases.v
theories/LoopModel.v
theories/LoopProofs.v
theories/CumSumSpec.v
theories/CumSumModel.v
theories/CumSumProofs.v
theories/CumSumProps.v
theories/GatherLoopSpec.v
theories/GatherLoopModel.v
theories/GatherLoopProofs.v
theories/GatherLoopProps.v
theories/ScatterLoopSpec.v
theories/ScatterLoopModel.v
theories/ScatterLoopProofs.v
theories/ScatterLoopProps.v
theories/CopyLoopSpec.v
theories/CopyLoopModel.v
theories/CopyLoopProofs.v
theories/CopyLoopProps.v
theories/NonZeroLoopModel.v
theories/NonZeroLoopProofs.v
theories/NonZeroLoopProps.v
theories/ArgLoopModel.v
theories/ArgLoopProofs.v
theories/ArgLoopProps.v
theories/ReduceLoopSpec.v
theories/ReduceLoopModel.v
theories/ReduceLoopProofs.v
theories/ReduceLoopProps.v
theories/SimdReduceModel.v
theories/SimdReduceProofs.v
theories/SimdShuffleProofs.v
theories/SimdDispatchProofs.v
theories/SimdReduceProps.v
theories/KrnlMatmulModel.v
theories/KrnlMatmulProofs.v
theories/MatmulTileProofs.v
theories/MatmulLowerProofs.v
theories/MatmulLowerProps.v
theories/GemmLowerModel.v
theories/GemmLowerProofs.v
theories/GemmLowerProps.v
theories/CompressModel.v
theories/CompressProofs.v
theories/CompressProps.v
theories/RangeLoopModel.v
theories/RangeLoopProps.v
theories/TransposeLoopModel.v
theories/TransposeLoopProofs.v
theories/TransposeLoopProps.v
theories/DepthSpaceModel.v
theories/DepthSpaceProofs.v
theories/DepthSpaceProps.v
theories/ControlSpec.v
theories/ControlModel.v
theories/ControlProofs.v
theories/ControlProps.v
theories/FloatDiv32Model.v
theories/FloatDiv32Proofs.v
theories/LoopTripSpec.v
theories/LoopTripModel.v
theories/LoopTripProofs.v
theories/LoopTripProps.v
theories/RnnSpec.v
theories/RnnModel.v
theories/RnnProofs.v
theories/RnnProps.v
theories/NmsSpec.v
theories/NmsModel.v
theories/NmsProofs.v
theories/NmsGeometry.v
theories/NmsProps.v
theories/ScheduleSpec.v
theories/ScheduleModel.v
theories/ScheduleProofs.v
theories/ScheduleInv.v
theories/ScheduleRun.v
theories/ScheduleOrder.v
theories/ScheduleProps.v
theories/QuantSpec.v
theories/QuantModel.v
theories/QuantProofs.v
theories/QuantFloat.v
theories/QuantReciprocal.v
theories/QuantProps.v
theories/QMatMulSpec.v
theories/QMatMulModel.v
theories/QMatMulProofs.v
theories/QMatMulProps.v
theories/ReshapeRewriteSpec.v
theories/ReshapeRewriteModel.v
theories/ReshapeRewriteProofs.v
theories/ReshapeRewriteProps.v
theories/ConcatRewriteSpec.v
theories/ConcatRewriteModel.v
theories/ConcatRewriteProofs.v
theories/ConcatRewriteProps.v
theories/ShapeRewriteSpec.v
theories/ShapeRewriteModel.v
theories/ShapeRewriteProofs.v
theories/ShapeRewriteProps.v
theories/PowRnnSpec.v
theories/PowRnnModel.v
theories/PowRnnProofs.v
theories/PowRnnProps.v
theories/BinaryRewriteSpec.v
theories/BinaryRewriteModel.v
theories/BinaryRewriteProofs.v
theories/BinaryRewriteProps.v
theories/NormRewriteSpec.v
theories/NormRewriteModel.v
theories/NormRewriteProofs.v
theories/NormRewriteProps.v
theories/SignatureSpec.v
theories/SignatureModel.v
theories/SignatureProofs.v
theories/SignatureProps.v
theories/InputShapeSpec.v
theories/InputShapeModel.v
theories/InputShapeProofs.v
theories/InputShapeProps.v
theories/AttentionSpec.v
theories/AttentionModel.v
theories/AttentionProofs.v
theories/AttentionProps.v
theories/TriluLoopSpec.v
theories/TriluLoopModel.v
theories/TriluLoopProofs.v
theories/TriluLoopProps.v
theories/SeqOpsSpec.v
theories/SeqOpsModel.v
theories/SeqOpsProofs.v
theories/SeqOpsProps.v
theories/UpsampleSpec.v
theories/UpsampleModel.v
theories/UpsampleProofs.v
theories/UpsampleProps.v
