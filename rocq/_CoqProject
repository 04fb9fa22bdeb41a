-Q theories Verif
theories/Base.v
theories/Json.v
theories/FloatLine.v
theories/IntervalModel.v
theories/IntervalJson.v
theories/IntervalSpec.v
theories/IntervalProofs.v
theories/IntervalDiff.v
theories/RealSetProofs.v
theories/RealSetOps.v
theories/IntervalMore.v
theories/RealSetMore.v
theories/IntervalMore2.v
theories/RealSetAlias.v
theories/IntervalExact.v
theories/IntervalDec.v
theories/IntervalProps.v
theories/RealSetProps.v
theories/SortModel.v
theories/SortProofs.v
theories/NumBase.v
theories/UtilModel.v
theories/UtilProofs.v
theories/UtilProps.v
theories/DiscreteModel.v
theories/DiscreteProofs.v
theories/DiscreteProofs2.v
theories/DiscreteProps.v
theories/FloatVal.v
theories/FunctionModel.v
theories/FunctionSpec.v
theories/FunctionProofs.v
theories/FunctionPlf.v
theories/FunctionInt.v
theories/FunctionPlf2.v
theories/FunctionProps.v
theories/TreeModel.v
theories/TreeSpec.v
theories/TreeApply.v
theories/TreeInfer.v
theories/TreePosterior.v
theories/TreeCond.v
theories/TreeCond2.v
theories/TreeCond3.v
theories/TreeCond4.v
theories/TreeDiscrete.v
theories/TreeWorlds.v
theories/TreeWorldProofs.v
theories/TreeWorldMore.v
theories/TreeMpe.v
theories/TreePartition.v
theories/TreePrune.v
theories/TreePrune2.v
theories/TreeWorldPrune.v
theories/TreeExample.v
theories/TreeProps.v
theories/ImpurityModel.v
theories/ImpuritySpec.v
theories/ImpurityProofs.v
theories/ImpurityStats.v
theories/ImpurityBest.v
theories/ImpurityBest2.v
theories/ImpurityRange.v
theories/ImpurityProps.v
theories/LearnModel.v
theories/LearnSpec.v
theories/LearnTree.v
theories/LearnProofs.v
theories/LearnInv.v
theories/LearnOpt.v
theories/LearnDiscrete.v
theories/LearnProps.v
theories/NumericModel.v
theories/NumericReg.v
theories/NumericSpec.v
theories/NumericFit.v
theories/NumericProb.v
theories/NumericMerge.v
theories/NumericMix.v
theories/NumericClose.v
theories/NumericExample.v
theories/NumericProps.v
theories/NumericProps2.v
theories/NumericCut.v
theories/NumericCrop.v
theories/NumericCropSpec.v
theories/NumericPoint.v
theories/NumericProps3.v
theories/NumericQuant.v
theories/NumericProps4.v
theories/VarModel.v
theories/VarSpec.v
theories/VarProofs.v
theories/VarProps.v
theories/ScalerModel.v
theories/ScalerProps.v
theories/GaussModel.v
theories/GaussSpec.v
theories/GaussProofs.v
theories/GaussProps.v
theories/MpeModel.v
theories/MpeSpec.v
theories/MpeProofs.v
theories/MpeProofs2.v
theories/MpeProofs3.v
theories/MpeProps.v
theories/SeqModel.v
theories/SeqProps.v
theories/TreeJson.v
theories/TreeJsonProofs.v
theories/TreeJsonWhole.v
theories/TreeJsonDiscrete.v
theories/TreeJsonProps.v
theories/NumericTree.v
theories/MixedTree.v
theories/MixedProps.v
theories/TreeEffect.v
theories/EffectProps.v
theories/NumericMoment.v
theories/MomentProps.v
theories/ModeProps.v
theories/SampleProps.v
theories/EqualNum.v
theories/EqualProps.v
theories/MixedPosterior.v
theories/MixedPosteriorProps.v
theories/MixedCond.v
theories/MixedCondProps.v
theories/MixedMoment.v
theories/MixedMomentProps.v
theories/MixedMpeProps.v
theories/LearnMixed.v
theories/LearnMixedProps.v
theories/GapModel.v
theories/GapProofs.v
theories/GapProps.v
theories/GapTree.v
theories/MixedJson.v
theories/MixedJsonProps.v
theories/InfBounds.v
theories/BindModel.v
theories/BindSpec.v
theories/BindProofs.v
theories/BindProps.v
theories/ReverseModel.v
theories/UnionInfer.v
theories/UnionProps.v
theories/UnionBind.v
theories/ReverseProps.v
theories/SampleModel.v
theories/SampleTree.v
theories/ConsistModel.v
theories/ConsistProps.v
theories/JaccardModel.v
theories/JaccardProps.v
theories/KlModel.v
theories/KlProps.v
theories/KlLearnt.v
