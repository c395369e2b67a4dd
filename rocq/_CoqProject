-Q theories Verif
theories/LinalgModel.v
theories/MatrixModel.v
theories/SuModel.v
theories/AlgebraModel.v
theories/LinalgSpec.v
theories/LinalgProofs1.v
theories/LinalgProofs2.v
theories/LinalgProofs3.v
theories/LinalgProofs4.v
theories/AlgebraProofs1.v
theories/MatrixSpec.v
theories/EigenSpec.v
theories/SuSpec.v
theories/AlgebraSpec.v
theories/SortModel.v
theories/EigenModel.v
theories/FieldTac.v
theories/MatrixProofs1.v
theories/EigenProofs1.v
theories/AlgebraProofs2.v
theories/MatrixProofs2.v
theories/EigenProofs2.v
theories/AlgebraProofs3.v
theories/AlgebraProofs4.v
theories/AlgebraProofs5.v
theories/SortSpec.v
theories/SortProofs.v
theories/EigenProofs3.v
theories/EigenProofs4.v
theories/MatrixProps.v
theories/EigenProps.v
theories/AlgebraProps.v
theories/BilinearModel.v
theories/BilinearProofs1.v
theories/BilinearProps.v
theories/Common.v
theories/RandomModel.v
theories/SrcbufModel.v
theories/BinningModel.v
theories/BinningSpec.v
theories/RandomSpec.v
theories/RandomProofs1.v
theories/BinningProofs1.v
theories/BinningProps.v
theories/LayoutModel.v
theories/BlockModel.v
theories/LayoutSpec.v
theories/BlockSpec.v
theories/LayoutProofs1.v
theories/LayoutProofs2.v
theories/BlockProofs1.v
theories/BlockProofs2.v
theories/LayoutProofs3.v
theories/LayoutProofs4.v
theories/LayoutProofs5.v
theories/LayoutProofs6.v
theories/LayoutProofs7.v
theories/LayoutProofs8.v
theories/LayoutProps.v
theories/BlockProofs3.v
theories/BlockProps.v
theories/CgModel.v
theories/CgSpec.v
theories/CgProofs1.v
theories/CgProofs2.v
theories/CgProps.v
theories/CheckpointModel.v
theories/CheckpointSpec.v
theories/CheckpointProofs1.v
theories/CheckpointProps.v
theories/ChexpModel.v
theories/ChexpProofs1.v
theories/ChexpProofs2.v
theories/ChexpProofs3.v
theories/ChexpProps.v
theories/ElementModel.v
theories/IoModel.v
theories/SelectModel.v
theories/ClusterModel.v
theories/ReduceModel.v
theories/ReduceSpec.v
theories/ClusterSpec.v
theories/ElementSpec.v
theories/ElementProofs1.v
theories/ElementProofs2.v
theories/IoSpec.v
theories/IoProofs1.v
theories/ReduceProofs1.v
theories/SelectSpec.v
theories/SelectProofs1.v
theories/ClusterProofs1.v
theories/ClusterProofs2.v
theories/ClusterProofs3.v
theories/ClusterProps.v
theories/WordsModel.v
theories/CmdargsModel.v
theories/CmdargsSpec.v
theories/WordsSpec.v
theories/WordsProofs1.v
theories/CmdargsProofs1.v
theories/CmdargsProps.v
theories/CmdlineModel.v
theories/CmdlineSpec.v
theories/CmdlineProofs1.v
theories/CmdlineProofs2.v
theories/CmdlineProps.v
theories/CmplxModel.v
theories/CmplxSpec.v
theories/CmplxProofs1.v
theories/CmplxProofs2.v
theories/CmplxProps.v
theories/MucaModel.v
theories/DecimalModel.v
theories/MucaSpec.v
theories/MucaProofs1.v
theories/DecimalProofs1.v
theories/DecimalProofs2.v
theories/GaugeModel.v
theories/DiracModel.v
theories/GaugeSpec.v
theories/DiracSpec.v
theories/GaugeMatrix.v
theories/DiracMatrix.v
theories/GaugeProofs1.v
theories/DiracProofs1.v
theories/GaugeProofs2.v
theories/GaugeProps.v
theories/DiracProps.v
theories/EigenProofs5.v
theories/EigenProofs6.v
theories/EigenProofs7.v
theories/ElementProps.v
theories/ExtendedModel.v
theories/ExtendedSpec.v
theories/ExtendedProofs1.v
theories/ExtendedProofs2.v
theories/ExtendedProofs3.v
theories/ExtendedProps.v
theories/FftModel.v
theories/FftSpec.v
theories/FftProofs1.v
theories/FftProofs2.v
theories/FftProofs3.v
theories/FftProofs4.v
theories/FftProofs5.v
theories/FftProps.v
theories/ForceModel.v
theories/GaussModel.v
theories/FlowModel.v
theories/ForceSpec.v
theories/GaussSpec.v
theories/FlowSpec.v
theories/ForceProofs1.v
theories/ForceProofs2.v
theories/ForceProofs3.v
theories/ForceProofs4.v
theories/ForceProofs5.v
theories/ForceProofs6.v
theories/ForceProofs7.v
theories/ForceProofs8.v
theories/ForceProofs9.v
theories/ForceProofs10.v
theories/ForceProps.v
theories/GaussProofs1.v
theories/GaussProofs2.v
theories/GaussProofs3.v
theories/GaussProofs4.v
theories/GaussProofs6.v
theories/GaussProofs7.v
theories/FlowProofs1.v
theories/FlowProofs2.v
theories/FlowProofs3.v
theories/FlowProofs4.v
theories/FlowProofs5.v
theories/FlowProofs6.v
theories/FlowProofs7.v
theories/FlowProofs8.v
theories/FlowProofs9.v
theories/FlowProps.v
theories/FlowstepModel.v
theories/FlowstepSpec.v
theories/FlowstepProofs1.v
theories/FlowstepProofs2.v
theories/FlowstepProofs3.v
theories/FlowstepProofs4.v
theories/FlowstepProofs5.v
theories/FlowstepProps.v
theories/GatherModel.v
theories/GatherSpec.v
theories/GatherProofs1.v
theories/GatherProofs2.v
theories/GatherProofs3.v
theories/GatherProofs4.v
theories/GatherProofs5.v
theories/GatherProofs6.v
theories/GatherProofs7.v
theories/GatherProofs8.v
theories/OverlapModel.v
theories/OverlapProofs1.v
theories/GatherProofs9.v
theories/GatherProps.v
theories/GaussProofs5.v
theories/GaussProps.v
theories/Su2Model.v
theories/HeatbathModel.v
theories/HeatbathSpec.v
theories/OverrelaxModel.v
theories/Su2Proofs1.v
theories/Su2Spec.v
theories/LinalgProofs5.v
theories/LinalgProofs6.v
theories/LinalgProps.v
theories/SuProofs1.v
theories/SuProofs2.v
theories/Su2Proofs2.v
theories/Su2Proofs3.v
theories/OverrelaxProofs1.v
theories/OverrelaxProofs2.v
theories/HeatbathProofs1.v
theories/OverrelaxProofs3.v
theories/OverrelaxProofs4.v
theories/HeatbathProofs2.v
theories/OverrelaxProofs5.v
theories/HeatbathProofs3.v
theories/HeatbathProofs4.v
theories/HeatbathProps.v
theories/InputModel.v
theories/InputSpec.v
theories/InputProofs1.v
theories/InputProofs2.v
theories/InputProofs3.v
theories/InputProofs4.v
theories/InputProofs5.v
theories/InputProofs6.v
theories/InputProofs7.v
theories/InputProps.v
theories/IntegratorModel.v
theories/IntegratorSpec.v
theories/IntegratorProofs1.v
theories/IntegratorProps.v
theories/IoProofs2.v
theories/IoProps.v
theories/LeviModel.v
theories/LeviSpec.v
theories/LeviProofs1.v
theories/LeviProps.v
theories/LocalModel.v
theories/LocalSpec.v
theories/LocalProofs1.v
theories/LocalProofs2.v
theories/LocalProofs3.v
theories/LocalProofs4.v
theories/LocalProofs5.v
theories/LocalProps.v
theories/LonglinkModel.v
theories/LonglinkSpec.v
theories/LonglinkProofs1.v
theories/LonglinkProofs2.v
theories/LonglinkProps.v
theories/MinmaxModel.v
theories/MinmaxSpec.v
theories/MinmaxProofs1.v
theories/ReduceProofs2.v
theories/ReduceProps.v
theories/ReductionModel.v
theories/ReductionSpec.v
theories/ReductionProofs1.v
theories/ReductionProofs2.v
theories/ReductionProps.v
theories/MinmaxProps.v
theories/MucaProofs2.v
theories/MucaProps.v
theories/MucafileModel.v
theories/MucafileSpec.v
theories/MucafileProofs1.v
theories/MucafileProps.v
theories/OverlapProps.v
theories/OverrelaxProps.v
theories/PoolModel.v
theories/PoolSpec.v
theories/PoolProofs1.v
theories/PoolProofs2.v
theories/PoolProps.v
theories/RandomProofs2.v
theories/RandomProps.v
theories/SelectProofs2.v
theories/SelectProps.v
theories/SetupModel.v
theories/SetupProofs1.v
theories/SetupProofs2.v
theories/SetupProps.v
theories/ShiftModel.v
theories/ShiftSpec.v
theories/ShiftProofs1.v
theories/ShiftProps.v
theories/SiteindexModel.v
theories/SiteindexSpec.v
theories/SiteindexProofs1.v
theories/SiteindexProps.v
theories/SortProps.v
theories/SrcbufSpec.v
theories/SrcbufProofs1.v
theories/SrcbufProofs2.v
theories/SrcbufProofs3.v
theories/SrcbufProofs4.v
theories/SrcbufProps.v
theories/StoutModel.v
theories/StoutProofs0.v
theories/StoutSpec.v
theories/StoutProofs1.v
theories/StoutProofs2.v
theories/StoutProofs3.v
theories/StoutProofs4.v
theories/StoutProps.v
theories/StoutforceModel.v
theories/StoutforceSpec.v
theories/StoutforceProofs1.v
theories/StoutforceProofs2.v
theories/StoutforceProofs3.v
theories/StoutforceProofs4.v
theories/StoutforceProofs5.v
theories/StoutforceProofs6.v
theories/StoutforceProps.v
theories/StoutkModel.v
theories/StoutkProofs1.v
theories/StoutkProofs2.v
theories/StoutkProps.v
theories/Su2Props.v
theories/Su2expSpec.v
theories/Su2expProofs1.v
theories/Su2expProps.v
theories/SuProps.v
theories/SvdProps.v
theories/TagModel.v
theories/TagSpec.v
theories/TagProofs1.v
theories/TagProps.v
theories/TimelimitModel.v
theories/TimelimitSpec.v
theories/TimelimitProofs1.v
theories/TimelimitProps.v
theories/TokensModel.v
theories/TokensSpec.v
theories/TokensProofs1.v
theories/TokensProps.v
theories/VectorModel.v
theories/VectorSpec.v
theories/VectorProofs1.v
theories/VectorProofs2.v
theories/VectorProps.v
theories/VlayoutModel.v
theories/VlayoutSpec.v
theories/VlayoutProofs1.v
theories/VlayoutProofs2.v
theories/VlayoutProofs3.v
theories/VlayoutProofs4.v
theories/VlayoutProofs5.v
theories/VlayoutProofs6.v
theories/VlayoutProofs7.v
theories/VlayoutProofs8.v
theories/VlayoutProofs10.v
theories/VlayoutProofs9.v
theories/VlayoutProps.v
theories/VsetupModel.v
theories/VsetupProofs1.v
theories/VsetupProofs2.v
theories/VsetupProofs3.v
theories/VsetupProps.v
theories/WordsProofs2.v
theories/WordsProofs3.v
theories/WordsProps.v
