-Q theories Verif
theories/Base.v
theories/Sums.v
theories/FuncsModel.v
theories/FuncsSpec.v
theories/FuncsProofs.v
theories/FuncsProps.v
theories/NdModel.v
theories/HeapModel.v
theories/TensorModel.v
theories/NdProofs.v
theories/TensorSpec.v
theories/TensorProofs.v
theories/LabelProofs.v
theories/MatrixProofs.v
theories/MergeProofs.v
theories/CtorProofs.v
theories/DiagCtorProofs.v
theories/CopyProofs.v
theories/TensorProps.v
theories/ContractModel.v
theories/NetSpec.v
theories/ShareProofs.v
theories/SumpairsProofs.v
theories/ContractProofs.v
theories/DiagContractProofs.v
theories/OneDiagProofs.v
theories/OuterProofs.v
theories/LinkProofs.v
theories/NetProofs.v
theories/SeqProofs.v
theories/ContractProps.v
theories/FrameProofs.v
theories/CopyListProofs.v
theories/CopyListProps.v
theories/SearchModel.v
theories/BitProofs.v
theories/SearchSpec.v
theories/SearchBase.v
theories/BfProofs.v
theories/GreedyProofs.v
theories/CapProofs.v
theories/SearchProofs.v
theories/SearchProps.v
theories/GraphModel.v
theories/GraphSpec.v
theories/GraphProofs.v
theories/LatticeProofs.v
theories/GraphProps.v
theories/NetGraphModel.v
theories/NetGraphSpec.v
theories/RetProofs.v
theories/NetGraphProofs.v
theories/NetSearchProofs.v
theories/NetRunProofs.v
theories/NetOptProofs.v
theories/NetGraphProps.v
theories/LikeProofs.v
theories/LikeSpec.v
theories/LikeSeqProofs.v
theories/LikeProps.v
theories/MergeLinkSpec.v
theories/MergeLinkProofs.v
theories/MergeLinkProps.v
theories/FtnModel.v
theories/FtnSpec.v
theories/FtnProofs.v
theories/FtnFrameProofs.v
theories/FtnProps.v
theories/FtnNetSpec.v
theories/FtnCopyProofs.v
theories/FtnLinkProofs.v
theories/FtnNetProofs.v
theories/FtnRunProofs.v
theories/FtnPostProofs.v
theories/FtnMainProofs.v
theories/FtnStaleProofs.v
theories/FtnNetProps.v
theories/StringSetModel.v
theories/StringSetSpec.v
theories/StringSetProofs.v
theories/StringSetProps.v
theories/TextModel.v
theories/TextSpec.v
theories/TextProofs.v
theories/TextLinkProofs.v
theories/TextProps.v
theories/RealSR.v
theories/IsingModel.v
theories/IsingSpec.v
theories/FreshNetProofs.v
theories/IsingAlgebra.v
theories/IsingProofs.v
theories/IsingNetProofs.v
theories/IsingMainProofs.v
theories/IsingProps.v
theories/SvdModel.v
theories/GroupSpec.v
theories/GroupProofs.v
theories/SvdSpec.v
theories/SvdProofs.v
theories/SplitProofs.v
theories/PairProofs.v
theories/NetSameProofs.v
theories/MergeSvdProofs.v
theories/SvdProps.v
theories/SchmidtSpec.v
theories/TagProofs.v
theories/SchmidtProofs.v
theories/SchmidtProps.v
theories/MpsModel.v
theories/MpsSpec.v
theories/MpsPairProofs.v
theories/MpsProofs.v
theories/MpsSwapProofs.v
theories/MpsNewProofs.v
theories/MpsMoveProofs.v
theories/MpsProps.v
theories/GroupMadeProofs.v
theories/TripleProofs.v
theories/TripleSpec.v
theories/TripleSvdProofs.v
theories/TripleProps.v
theories/CanonModel.v
theories/CanonSpec.v
theories/CanonProofs.v
theories/CanonStepProofs.v
theories/CanonChainProofs.v
theories/CanonRunProofs.v
theories/CanonCheckProofs.v
theories/CanonProps.v
theories/MpsCreateModel.v
theories/MpsCreateSpec.v
theories/MatrixSchmidtProofs.v
theories/MpsCreateStepProofs.v
theories/MpsPreProofs.v
theories/MpsCreateProofs.v
theories/MpsCreateMainProofs.v
theories/MpsCreateRoomProofs.v
theories/MpsCreateProps.v
theories/MpsContractModel.v
theories/MpsContractSpec.v
theories/MpsOpenProofs.v
theories/MpsCommonProofs.v
theories/MpsFuseProofs.v
theories/MpsContractProofs.v
theories/MpsContractProps.v
theories/MpsSiteProofs.v
theories/MpsDoubleSpec.v
theories/MpsDoubleProofs.v
theories/MpsCutProofs.v
theories/MpsDoubleMainProofs.v
theories/MpsBondProofs.v
theories/MpsMergeProofs.v
theories/RankLibProofs.v
theories/MpsMergeProps.v
theories/MpsNetSpec.v
theories/MpsNetProofs.v
theories/MpsNetMergeProofs.v
theories/MpsNetRunProofs.v
theories/MpsNetMainProofs.v
theories/MpsNetMakeProofs.v
theories/MpsNetFinalProofs.v
theories/MpsNetProps.v
theories/NamedSpec.v
theories/NamedProofs.v
theories/NetsModel.v
theories/NetsSpec.v
theories/NetsProofs.v
theories/NetsProps.v
theories/TorusSpec.v
theories/TorusProofs.v
theories/TorusIsoProofs.v
theories/NamedMatProofs.v
theories/TrgModel.v
theories/TrgSpec.v
theories/TrgProofs.v
theories/TrgExampleProofs.v
theories/TrgProps.v
theories/HotrgModel.v
theories/DoubleSpec.v
theories/DoubleProofs.v
theories/HotrgSpec.v
theories/HotrgProofs.v
theories/HotrgRunProofs.v
theories/DoubleGridProofs.v
theories/HotrgRealProofs.v
theories/HotrgExampleProofs.v
theories/HotrgProps.v
theories/MomentSpec.v
theories/MomentProofs.v
theories/ImpurityModel.v
theories/ImpuritySpec.v
theories/MomentStepProofs.v
theories/ImpurityProofs.v
theories/ImpurityRunProofs.v
theories/ImpurityMeasureProofs.v
theories/ImpurityExampleProofs.v
theories/ImpurityProps.v
theories/SquareIsingModel.v
theories/SquareIsingSpec.v
theories/SquareIsingProofs.v
theories/SquareIsingProps.v
theories/SumAllProofs.v
theories/OpenSpec.v
theories/OpenProofs.v
theories/OpenSplitProofs.v
theories/CtmrgModel.v
theories/DiagNetSpec.v
theories/NamedDiagProofs.v
theories/CtmrgNetProofs.v
theories/CtmrgTensProofs.v
theories/CtmrgSpec.v
theories/CtmrgValueProofs.v
theories/CtmrgStepProofs.v
theories/CtmrgIterProofs.v
theories/CtmrgInitProofs.v
theories/CtmrgRunSpec.v
theories/CtmrgRunProofs.v
theories/CtmrgGetProofs.v
theories/OpenMirrorProofs.v
theories/CtmrgExampleProofs.v
theories/CtmrgExactProofs.v
theories/CtmrgProps.v
theories/UnlinkProofs.v
theories/PairLinkProofs.v
theories/TriTrgModel.v
theories/TriTrgSpec.v
theories/TriPairProofs.v
theories/TriStepProofs.v
theories/TriTraceProofs.v
theories/TriLatSpec.v
theories/TriLatProofs.v
theories/TriRunSpec.v
theories/TriRunProofs.v
theories/TriTrgProps.v
theories/SelfTraceModel.v
theories/SelfTraceProofs.v
theories/SelfTraceProps.v
theories/ExactMModel.v
theories/ExactMSpec.v
theories/ExactMProofs.v
theories/ExactMProps.v
theories/MpsCopyModel.v
theories/MpsCopyProofs.v
theories/MpsCopyProps.v
theories/RandomMpsModel.v
theories/RandomMpsSpec.v
theories/RandomMpsProofs.v
theories/RandomMpsProps.v
theories/TnrModel.v
theories/TnrSpec.v
theories/TnrProofs.v
theories/TnrProps.v
theories/HelperModel.v
theories/HelperSpec.v
theories/HelperProofs.v
theories/HelperProps.v
theories/MeasureModel.v
theories/MeasureSpec.v
theories/MeasureProofs.v
theories/MeasureProps.v
