-Q theories Verif
theories/Res.v
theories/RationalModel.v
theories/RationalSpec.v
theories/RationalProofs.v
theories/RationalProps.v
theories/Rational64Model.v
theories/Rational64Proofs.v
theories/CombinatoricsModel.v
theories/CombinatoricsProofs.v
theories/SignProofs.v
theories/SignPerm.v
theories/PartitionsModel.v
theories/PartitionsSpec.v
theories/PartitionsProofs.v
theories/CombinatoricsProps.v
theories/SignPermProps.v
theories/RegistryModel.v
theories/RegistryProofs.v
theories/RegistryProps.v
theories/CoreModel.v
theories/OrderProofs.v
theories/AlgebraModel.v
theories/AlgebraSpec.v
theories/AlgebraProofs.v
theories/AlgebraProofs2.v
theories/AlgebraProps.v
theories/SortModel.v
theories/SortSpec.v
theories/SortProofs.v
theories/SortProps.v
theories/AlgebraCases.v
theories/NormalOrderModel.v
theories/NormalOrderProofs.v
theories/NormalOrderProofs2.v
theories/NormalOrderProps.v
theories/ScalarSem.v
theories/LadderSpec.v
theories/LadderProofs.v
theories/LadderProps.v
theories/OperatorModel.v
theories/OperatorSpec.v
theories/OperatorProofs.v
theories/OperatorProofs2.v
theories/OperatorProofs3.v
theories/AdjointModel.v
theories/AdjointProofs.v
theories/OperatorExprSpec.v
theories/OperatorExprProofs.v
theories/OperatorProps.v
theories/OperatorSemSpec.v
theories/OperatorSemProofs.v
theories/BchProofs.v
theories/OperatorSemProps.v
theories/CanonModel.v
theories/CanonSpec.v
theories/CanonProofs.v
theories/CanonProofs2.v
theories/CanonIdem.v
theories/CanonProps.v
theories/CanonSemSpec.v
theories/CanonSemProofs.v
theories/CanonSemProps.v
theories/NextPermModel.v
theories/NextPermProofs.v
theories/WickSearchModel.v
theories/WickSearchSpec.v
theories/WickElemProofs.v
theories/WickElemProofs2.v
theories/WickCompProofs.v
theories/WickSearchProofs.v
theories/WickSearchProps.v
theories/CountSpec.v
theories/CountProofs.v
theories/DecModel.v
theories/WickEvalModel.v
theories/WickCombSpec.v
theories/WickCombProofs.v
theories/WickCombProps.v
theories/WickGraphSpec.v
theories/WickGraphProofs.v
theories/WickGraphProofs2.v
theories/WickGraphProps.v
theories/WickLegSpec.v
theories/WickLegProofs.v
theories/WickLegProofs2.v
theories/WickLegProofs3.v
theories/WickLegProofs4.v
theories/WickLegProofs5.v
theories/WickLegProofs6.v
theories/WickLegProps.v
theories/WickThreadModel.v
theories/WickThreadSpec.v
theories/WickThreadProofs.v
theories/WickThreadProofs2.v
theories/WickLinearSpec.v
theories/WickLinearProofs.v
theories/WickTotalProofs.v
theories/WickHistoryProofs.v
theories/WickThreadProps.v
theories/WickLinearProps.v
theories/TextModel.v
theories/TextSpec.v
theories/TextProofs.v
theories/TextProofs2.v
theories/TextProofs3.v
theories/TextProofs4.v
theories/TextProps.v
theories/ExprTextModel.v
theories/ExprTextSpec.v
theories/ExprTextProofs.v
theories/ExprTextProofs2.v
theories/ExprTextProofs3.v
theories/ExprTextProofs4.v
theories/ExprTextProofs5.v
theories/ExprTextProofs6.v
theories/ExprTextProps.v
theories/GenOpModel.v
theories/GenOpSpec.v
theories/GenOpProofs.v
theories/GenOpProofs2.v
theories/GenOpProps.v
theories/RemapModel.v
theories/RemapProofs.v
theories/RemapProps.v
theories/EquationModel.v
theories/EquationSpec.v
theories/EquationProofs.v
theories/EquationProofs2.v
theories/EquationProps.v
theories/WickMatchProofs.v
theories/WickMatchProofs2.v
theories/WickProductSpec.v
theories/WickProductProofs.v
theories/WickProductProofs2.v
theories/WickProductProofs3.v
theories/WickProductProofs4.v
theories/WickProductProofs5.v
theories/WickProductProofs6.v
theories/WickPairProofs.v
theories/WickPairProofs2.v
theories/WickProductProofs7.v
theories/WickProductProofs8.v
theories/WickPairProofs3.v
theories/WickPairProofs4.v
theories/WickProductProofs9.v
theories/WickProductProofs10.v
theories/WickPairProofs5.v
theories/WickPairProofs6.v
theories/WickProductProofs11.v
theories/WickProductProofs12.v
theories/WickProductProofs13.v
theories/WickPairSpec.v
theories/WickPairProofs7.v
theories/WickProductProofs14.v
theories/WickTheoremSpec.v
theories/WickProductProofs15.v
theories/WickFockProofs.v
theories/WickProductExample.v
theories/WickProductProps.v
theories/EinsumSpec.v
theories/EinsumProofs.v
theories/EinsumProofs2.v
theories/EinsumProps.v
theories/PyEinsumModel.v
theories/PyEinsumSpec.v
theories/PyEinsumProofs.v
theories/PyEinsumProofs2.v
theories/PyEinsumProps.v
theories/WickGeneralSpec.v
theories/WickConvProofs.v
theories/WickConvProofs2.v
theories/WickBlockProofs.v
theories/WickGenProofs.v
theories/WickGenProofs2.v
theories/WickGenProofs3.v
theories/WickGenProofs4.v
theories/WickGenProofs5.v
theories/WickGenProofs6.v
theories/WickGenProofs7.v
theories/WickGenProofs8.v
theories/WickGenProofs9.v
theories/WickGenProofs10.v
theories/WickGenProofs11.v
theories/WickGenProofs12.v
theories/WickGenProofs13.v
theories/WickStateSpec.v
theories/WickStateProofs.v
theories/WickStateProofs2.v
theories/WickStateProofs3.v
theories/WickStateProofs4.v
theories/WickFockProofs2.v
theories/WickGeneralExample.v
theories/WickStateProofs5.v
theories/WickGeneralExample2.v
theories/WickGeneralProps.v
theories/LatexModel.v
theories/LatexSpec.v
theories/LatexProofs.v
theories/LatexProofs2.v
theories/LatexProofs3.v
theories/LatexProps.v
theories/ContractShapeSpec.v
theories/ContractShapeProofs.v
theories/ContractShapeProofs2.v
theories/ContractShapeProofs3.v
theories/ContractShapeProps.v
theories/ContractEinsumProofs.v
theories/ContractEinsumProps.v
theories/EqTextModel.v
theories/EqTextSpec.v
theories/EqTextProofs.v
theories/AmbitSpec.v
theories/AmbitProofs.v
theories/ContractAmbitProofs.v
theories/EqTextProps.v
theories/DecimalModel.v
theories/DecimalSpec.v
theories/DecimalProofs.v
theories/DecimalProofs2.v
theories/DecimalProofs3.v
theories/DecimalProps.v
theories/OpTextModel.v
theories/OpTextSpec.v
theories/OpTextProofs.v
theories/OpTextProps.v
theories/RegTextModel.v
theories/RegTextSpec.v
theories/RegTextProofs.v
theories/RegTextProps.v
theories/NormModel.v
theories/NormSpec.v
theories/NormProofs.v
theories/NormProofs2.v
theories/NormProofs3.v
theories/NormProps.v
theories/AliasModel.v
theories/AliasProofs.v
theories/AliasProps.v
theories/WickMultSpec.v
theories/WickMultProofs.v
theories/WickMultProofs2.v
theories/WickMultProofs3.v
theories/WickMultExample.v
theories/WickMultProofs4.v
theories/WickMultExample2.v
theories/WickMultProps.v
theories/TraceModel.v
theories/TraceSpec.v
theories/TraceProofs.v
theories/TraceProofs2.v
theories/TraceProofs3.v
theories/TraceProofs4.v
theories/TraceProofs5.v
theories/TraceProofs6.v
theories/TraceProofs7.v
theories/TraceExample.v
theories/TraceProps.v
theories/PyModel.v
theories/PySpec.v
theories/PyProofs.v
theories/PyProofs2.v
theories/PyProofs3.v
theories/PyProofs4.v
theories/PyProofs5.v
theories/PyProofs6.v
theories/PyProofs7.v
theories/PyProofs8.v
theories/PyProps.v
theories/PipeSpec.v
theories/PipeProofs.v
theories/PipeProofs2.v
theories/PipeProofs3.v
theories/PipeProofs4.v
theories/PipeProofs5.v
theories/PipeProofs6.v
theories/PipeProofs7.v
theories/PipeProofs8.v
theories/PipeExample0.v
theories/PipeExample.v
theories/PipeProps.v
theories/BchWickSpec.v
theories/BchWickProofs.v
theories/BchWickProofs2.v
theories/BchWickProofs3.v
theories/BchWickProofs4.v
theories/BchWickProofs5.v
theories/BchWickProofs6.v
theories/BchWickProofs7.v
theories/BchWickExample.v
theories/BchWickExample2.v
theories/BchWickProps.v
theories/AmbitPipeSpec.v
theories/AmbitPipeProofs.v
theories/AmbitPipeProofs2.v
theories/AmbitPipeProofs3.v
theories/AmbitPipeProofs4.v
theories/AmbitPipeProps.v
theories/RankSplitSpec.v
theories/RankSplitProofs.v
theories/RankSplitProofs2.v
theories/RankSplitProofs3.v
theories/RankSplitExample.v
theories/RankSplitProps.v
theories/AdjWickSpec.v
theories/AdjWickProofs.v
theories/AdjWickProofs2.v
theories/AdjWickProofs3.v
theories/AdjWickProofs4.v
theories/AdjWickProofs5.v
theories/AdjWickProofs6.v
theories/AdjWickProofs7.v
theories/AdjWickProofs8.v
theories/AdjWickExample.v
theories/AdjWickProps.v
theories/RenumSpec.v
theories/RenumProofs.v
theories/RenumProofs2.v
theories/RenumProofs3.v
theories/RenumProofs4.v
theories/RenumProofs5.v
theories/RenumExample.v
theories/RenumProps.v
theories/PyOpModel.v
theories/PyOpSpec.v
theories/PyOpProofs.v
theories/PyOpProofs2.v
theories/PyOpProofs3.v
theories/PyOpProps.v
theories/CanonWickProofs.v
theories/CanonWickProofs2.v
theories/CanonWickExample.v
theories/CanonWickProps.v
