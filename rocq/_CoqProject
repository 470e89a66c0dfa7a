-Q theories Verif
theories/DepModel.v
theories/DepSpec.v
theories/DepOracle.v
theories/DepProof.v
theories/DepExactProof.v
theories/Prop_Dep.v
theories/RangeModel.v
theories/RangeSpec.v
theories/RangeProof.v
theories/RangeBytes.v
theories/RangeDio.v
theories/Prop_Range.v
theories/MemSetModel.v
theories/MemSetSpec.v
theories/MemSetProof.v
theories/MemSetEqProof.v
theories/Prop_MemSet.v
theories/DFValueModel.v
theories/Prop_DFValue.v
theories/DFlowModel.v
theories/DFlowSpec.v
theories/DFlowProof.v
theories/DFlowGraphProof.v
theories/Prop_DFlow.v
theories/RegionModel.v
theories/RegionSpec.v
theories/RegionProof.v
theories/Prop_Region.v
theories/TraitModel.v
theories/TraitSpec.v
theories/Prop_Trait.v
theories/UtilModel.v
theories/Prop_Util.v
theories/BimapModel.v
theories/Prop_Bimap.v
theories/TreeModel.v
theories/TreeSpec.v
theories/TreeProof.v
theories/Prop_Tree.v
theories/PIterModel.v
theories/Prop_PIter.v
theories/MIVModel.v
theories/MIVSpec.v
theories/MIVGcdProof.v
theories/MIVBanerjeeProof.v
theories/MIVConstrProof.v
theories/Prop_MIV.v
theories/DTraitModel.v
theories/DTraitSpec.v
theories/DTraitProof.v
theories/Prop_DTrait.v
theories/PrivModel.v
theories/PrivSpec.v
theories/PrivProof.v
theories/PrivTraitProof.v
theories/Prop_Priv.v
theories/MemFlowModel.v
theories/MemFlowSpec.v
theories/MemFlowSolve.v
theories/MemFlowLevel.v
theories/MemFlowEq.v
theories/MemFlowCollapse.v
theories/MemFlowPath.v
theories/MemFlowReach.v
theories/MemFlowWhole.v
theories/MemFlowLive.v
theories/Prop_MemFlow.v
theories/AliasRelModel.v
theories/AliasRelSpec.v
theories/Prop_AliasRel.v
theories/EMForestModel.v
theories/EMForestSpec.v
theories/Prop_EMForest.v
theories/AliasNodeModel.v
theories/AliasNodeSpec.v
theories/Prop_AliasNode.v
theories/AliasNodeProof.v
theories/CoverModel.v
theories/CoverSpec.v
theories/Prop_Cover.v
theories/ParModel.v
theories/ParSpec.v
theories/ParProof.v
theories/Prop_Par.v
theories/ParItemModel.v
theories/ParItemSpec.v
theories/Prop_ParItem.v
theories/EMChainModel.v
theories/EMChainSpec.v
theories/EMChainProof.v
theories/Prop_EMChain.v
theories/DepDriverModel.v
theories/DepDriverSpec.v
theories/DepDriverProof.v
theories/DepPartProof.v
theories/DepDriverTop.v
theories/Prop_DepDriver.v
theories/RewriterModel.v
theories/RewriterSpec.v
theories/RewriterProof.v
theories/Prop_Rewriter.v
theories/SCEVModel.v
theories/SCEVSpec.v
theories/SCEVProof.v
theories/SCEVConcrete.v
theories/Prop_SCEVDiv.v
theories/DelinModel.v
theories/DelinSpec.v
theories/DelinProof.v
theories/Prop_Delin.v
theories/ReversalModel.v
theories/ReversalSpec.v
theories/ReversalProof.v
theories/Prop_Reversal.v
theories/AttrModel.v
theories/AttrSpec.v
theories/AttrProof.v
theories/Prop_Attr.v
theories/GlobalsModel.v
theories/GlobalsSpec.v
theories/GlobalsProof.v
theories/Prop_Globals.v
theories/CaptureModel.v
theories/CaptureSpec.v
theories/CaptureProof.v
theories/Prop_Capture.v
theories/ScalarizeModel.v
theories/ScalarizeSpec.v
theories/ScalarizeProof.v
theories/Prop_Scalarize.v
theories/CanonModel.v
theories/CanonSpec.v
theories/CanonProof.v
theories/Prop_Canon.v
theories/Prop_CanonHead.v
theories/InterchangeModel.v
theories/InterchangeSpec.v
theories/InterchangeProof.v
theories/InterchangeExec.v
theories/InterchangeNest.v
theories/InterchangeFinal.v
theories/Prop_Interchange.v
theories/GlobalLiveModel.v
theories/GlobalLiveSpec.v
theories/GlobalLiveProof.v
theories/Prop_GlobalLive.v
theories/RenameModel.v
theories/RenameSpec.v
theories/RenameProof.v
theories/Prop_Rename.v
theories/DeadDeclModel.v
theories/DeadDeclSpec.v
theories/DeadDeclProof.v
theories/Prop_DeadDecl.v
theories/NestModel.v
theories/NestSpec.v
theories/NestProof.v
theories/Prop_Nest.v
theories/ParLoopModel.v
theories/ParLoopSpec.v
theories/ParLoopSem.v
theories/ParLoopProof.v
theories/Prop_ParLoop.v
theories/OrdModel.v
theories/OrdSpec.v
theories/OrdSem.v
theories/OrdProof.v
theories/Prop_Ord.v
theories/UnrModel.v
theories/UnrSpec.v
theories/UnrProof.v
theories/Prop_Unr.v
theories/MdModel.v
theories/MdSpec.v
theories/MdProof.v
theories/Prop_Md.v
theories/PropagModel.v
theories/PropagSpec.v
theories/PropagProof.v
theories/Prop_Propag.v
theories/RecurModel.v
theories/RecurSpec.v
theories/RecurProof.v
theories/Prop_Recur.v
theories/InlineModel.v
theories/InlineSpec.v
theories/InlineSem.v
theories/InlineRen.v
theories/InlineRel.v
theories/InlineStatic.v
theories/InlineProof.v
theories/Prop_Inline.v
theories/WeightModel.v
theories/WeightSpec.v
theories/WeightProof.v
theories/Prop_Weight.v
theories/ReaderModel.v
theories/ReaderSpec.v
theories/ReaderProof.v
theories/Prop_Reader.v
theories/ClarifyModel.v
theories/ClarifySpec.v
theories/ClarifyProof.v
theories/Prop_Clarify.v
theories/CombineModel.v
theories/CombineSpec.v
theories/CombineProof.v
theories/Prop_Combine.v
theories/ExtractModel.v
theories/ExtractSpec.v
theories/ExtractProof.v
theories/Prop_Extract.v
theories/DseModel.v
theories/DseSpec.v
theories/DseProof.v
theories/Prop_Dse.v
theories/MatchModel.v
theories/MatchSpec.v
theories/MatchProof.v
theories/Prop_Match.v
theories/DepInlineModel.v
theories/DepInlineSpec.v
theories/DepInlineProof.v
theories/Prop_DepInline.v
theories/DvmhMergeModel.v
theories/DvmhMergeSpec.v
theories/DvmhMergeProof.v
theories/Prop_DvmhMerge.v
theories/AcrossModel.v
theories/AcrossSpec.v
theories/AcrossProof.v
theories/Prop_Across.v
theories/TieModel.v
theories/TieSpec.v
theories/TieProof.v
theories/Prop_Tie.v
theories/TransferModel.v
theories/TransferSpec.v
theories/TransferProof.v
theories/Prop_Transfer.v
theories/IpoModel.v
theories/IpoSpec.v
theories/IpoProof.v
theories/Prop_Ipo.v
theories/NotInitModel.v
theories/NotInitSpec.v
theories/NotInitProof.v
theories/Prop_NotInit.v
theories/LoopMatchModel.v
theories/LoopMatchSpec.v
theories/LoopMatchProof.v
theories/Prop_LoopMatch.v
theories/RedundModel.v
theories/RedundSpec.v
theories/RedundProof.v
theories/Prop_Redund.v
theories/NodeTraitModel.v
theories/NodeTraitSpec.v
theories/NodeTraitProof.v
theories/Prop_NodeTrait.v
theories/OutFileModel.v
theories/OutFileSpec.v
theories/OutFileProof.v
theories/OutFileProof2.v
theories/Prop_OutFile.v
theories/CoverageModel.v
theories/CoverageSpec.v
theories/CoverageProof.v
theories/Prop_Coverage.v
theories/SanitizeModel.v
theories/SanitizeSpec.v
theories/SanitizeProof.v
theories/Prop_Sanitize.v
theories/AtomicModel.v
theories/AtomicSpec.v
theories/AtomicProof.v
theories/Prop_Atomic.v
theories/DumpNameModel.v
theories/DumpNameSpec.v
theories/DumpNameProof.v
theories/Prop_DumpName.v
theories/CFTraitModel.v
theories/CFTraitSpec.v
theories/CFTraitProof.v
theories/Prop_CFTrait.v
theories/LoopLevelModel.v
theories/LoopLevelSpec.v
theories/LoopLevelProof.v
theories/Prop_LoopLevel.v
theories/NoMacroModel.v
theories/NoMacroSpec.v
theories/NoMacroProof.v
theories/Prop_NoMacro.v
theories/StatModel.v
theories/StatSpec.v
theories/StatProof.v
theories/Prop_Stat.v
theories/ConstReplModel.v
theories/ConstReplSpec.v
theories/ConstReplProof.v
theories/Prop_ConstRepl.v
theories/FlangRwModel.v
theories/FlangRwSpec.v
theories/FlangRwProof.v
theories/Prop_FlangRw.v
theories/ClauseModel.v
theories/ClauseSpec.v
theories/ClauseProof.v
theories/Prop_Clause.v
theories/DirectiveModel.v
theories/DirectiveSpec.v
theories/DirectiveProof.v
theories/Prop_Directive.v
theories/IncludeModel.v
theories/IncludeSpec.v
theories/IncludeProof.v
theories/Prop_Include.v
