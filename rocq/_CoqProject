-Q theories Verif

theories/Py.v
theories/Monad.v
theories/Utils.v
theories/Geometry.v
theories/LinearRingM.v
theories/BoundM.v
theories/LocalMinimumM.v
theories/StateM.v
theories/PointNodeM.v
theories/RingM.v
theories/SweepM.v
theories/TopologyM.v
theories/WagyuM.v
theories/Examples.v
theories/Spec.v
theories/SortP.v
theories/QuickP.v
theories/ListP.v
theories/UlpP.v
theories/MiscP.v
theories/ScanP.v
theories/HotPixelP.v
theories/HoareP.v
theories/PropUtils.v
theories/SweepFrameP.v
theories/ApiP.v
theories/PropApi.v
theories/SpecSweep.v
theories/SpecActive.v
theories/WindingP.v
theories/CalmP.v
theories/WindingInvP.v
theories/OrderP.v
theories/IntersectP.v
theories/InsertP.v
theories/MaximaP.v
theories/PropWinding.v
theories/FloatP.v
theories/SpecRing.v
theories/LinearRingP.v
theories/LinearRing2P.v
theories/RingEdgesP.v
theories/PropRing.v
theories/SpecBounds.v
theories/MinimaP.v
theories/AddRingP.v
theories/SpecHistory.v
theories/HistoryP.v
theories/SlopeP.v
theories/PropBounds.v
theories/SpecEdge.v
theories/RoundP.v
theories/EdgeP.v
theories/PropEdge.v
theories/SpecHeap.v
theories/CircleP.v
theories/HeapOpsP.v
theories/StatsP.v
theories/SplitP.v
theories/PropHeap.v
theories/PipP.v
theories/PropPip.v
theories/PointersP.v
theories/VatP.v
theories/SpecOrigin.v
theories/OriginP.v
theories/PropOrigin.v
theories/SpecTree.v
theories/TreeP.v
theories/OutputP.v
theories/PropTree.v
theories/BoundsM.v
theories/PropBox.v
theories/FuelP.v
theories/PropRun.v
theories/BlindP.v
theories/RelP.v
theories/RunRelP.v
theories/PropHistory.v
theories/SoloP.v
theories/PropKinds.v
theories/SpecRun.v
theories/PositionP.v
theories/SweepRunP.v
theories/SweepInvP.v
theories/PropSweep.v
theories/SpecRings.v
theories/NodeFrameP.v
theories/RingedP.v
theories/RingedTopP.v
theories/RingedCutP.v
theories/RingedPathP.v
theories/RingedFixP.v
theories/RingedArcP.v
theories/RingedSameP.v
theories/RingedOtherP.v
theories/RingedTreeP.v
theories/SpecEdges.v
theories/LiveP.v
theories/FlipP.v
theories/PropRinged.v
theories/SpecNest.v
theories/NestP.v
theories/NestTreeP.v
theories/OrientP.v
theories/RegionP.v
theories/FitP.v
theories/KeepOrderP.v
theories/PropNest.v
theories/MarkP.v
theories/SimpleP.v
theories/PropSimple.v
theories/EdgesP.v
theories/PropEdges.v
theories/SpecChain.v
theories/ChainP.v
theories/ChainBoundP.v
theories/ChainOpsP.v
theories/ChainWalkP.v
theories/ChainSweepP.v
theories/PropChain.v
theories/HaltP.v
theories/PayP.v
theories/NumberP.v
theories/HotHaltP.v
theories/PropHalt.v
theories/RingHaltP.v
theories/GroundP.v
theories/AppendHaltP.v
theories/SoundP.v
theories/SweepMoveP.v
theories/SweepHaltP.v
theories/HoldP.v
theories/PropHalt2.v
theories/SpecTour.v
theories/TourP.v
theories/ReconnectP.v
theories/PropTour.v
theories/TouchingP.v
theories/SelfTreeP.v
theories/PropTouching.v
theories/MarkTourP.v
theories/PropPlain.v
theories/RepeatP.v
theories/PropWritten.v
theories/SpecReduce.v
theories/ReduceP.v
theories/ShapeP.v
theories/PropShape.v
theories/TurnMinP.v
theories/PropMinima.v
theories/ReverseRingP.v
theories/PropReverse.v
theories/MoveP.v
theories/PropMove.v
