-Q theories Verif

theories/MachInt.v
theories/IntModel.v
theories/IntSpec.v
theories/IntProofs.v
theories/IntProps.v
theories/ListUtil.v
theories/BitSetModel.v
theories/BitSetSpec.v
theories/BitSetProofs.v
theories/BitSetProps.v
theories/ListArenaModel.v
theories/ListArenaSpec.v
theories/ListArenaProofs.v
theories/ListArenaProps.v
theories/EffModel.v
theories/EffSpec.v
theories/EffProofs.v
theories/EffProps.v
theories/HashTabModel.v
theories/HashTabSpec.v
theories/HashTabProofs.v
theories/HashTabProps.v
theories/HashModel.v
theories/HashSpec.v
theories/HashProofs.v
theories/HashProps.v
theories/ArrayModel.v
theories/ArraySpec.v
theories/ArrayProofs.v
theories/ArrayProps.v
theories/SortModel.v
theories/SortSpec.v
theories/SortProofs.v
theories/SortProps.v
theories/IterModel.v
theories/IterSpec.v
theories/IterProofs.v
theories/IterProps.v
theories/SplitModel.v
theories/SplitSpec.v
theories/SplitProofs.v
theories/SplitProps.v
theories/GraphModel.v
theories/GraphSpec.v
theories/GraphProofs.v
theories/SccProofs.v
theories/TopoProofs.v
theories/GraphProps.v
theories/DomModel.v
theories/DomSpec.v
theories/DomProofs.v
theories/DomLoops.v
theories/DomProps.v
theories/BudgetModel.v
theories/BudgetProofs.v
theories/BudgetProps.v
theories/Decimal.v
theories/NamesModel.v
theories/NamesProofs.v
theories/NamesProps.v
theories/SessionModel.v
theories/SessionSpec.v
theories/SessionProofs.v
theories/SessionInv.v
theories/SessionCompile.v
theories/SessionHistory.v
theories/SessionExamples.v
theories/SessionProps.v
theories/AffectedModel.v
theories/AffectedSpec.v
theories/AffectedProofs.v
theories/AffectedProps.v
theories/TagsModel.v
theories/TagsSpec.v
theories/TagsProofs.v
theories/TagsProps.v
theories/NamedModel.v
theories/NamedSpec.v
theories/NamedProofs.v
theories/NamedProps.v
theories/MirModel.v
theories/SandboxSpec.v
theories/SandboxProofs.v
theories/SandboxProps.v
theories/GuardModel.v
theories/TermSpec.v
theories/TermProofs.v
theories/GuardProofs.v
theories/TermExamples.v
theories/TermProps.v
theories/WillReturnModel.v
theories/WillReturnSpec.v
theories/WillReturnCfg.v
theories/WillReturnRun.v
theories/WillReturnProofs.v
theories/WillReturnExamples.v
theories/WillReturnProps.v
theories/SimSpec.v
theories/EditSpec.v
theories/SimProofs.v
theories/EditModel.v
theories/EditProofs.v
theories/EditMerge.v
theories/EditExamples.v
theories/EditProps.v
theories/RegModel.v
theories/PeepholeModel.v
theories/PeepholeSpec.v
theories/RegProofs.v
theories/PeepholeSim.v
theories/PeepholeProofs.v
theories/PeepholeExamples.v
theories/PeepholeProps.v
theories/InhabitModel.v
theories/InhabitSpec.v
theories/InhabitProofs.v
theories/InhabitProps.v
theories/RecEquationModel.v
theories/RecEquationSpec.v
theories/RecEquationProofs.v
theories/RecEquationValues.v
theories/RecEquationProps.v
theories/BorrowModel.v
theories/BorrowSpec.v
theories/BorrowProofs.v
theories/BorrowProps.v
theories/Utf8Model.v
theories/PositionModel.v
theories/PositionSpec.v
theories/PositionProofs.v
theories/PositionProps.v
theories/NfcModel.v
theories/NfcProofs.v
theories/StrModel.v
theories/StrSpec.v
theories/StrProofs.v
theories/StrProps.v
theories/StrSeqModel.v
theories/StrSeqSpec.v
theories/StrSeqProofs.v
theories/StrSeqProps.v
theories/DataModel.v
theories/DataTextModel.v
theories/DataTextSpec.v
theories/DataTextProofs.v
theories/DataTextProps.v
theories/JsonModel.v
theories/JsonSpec.v
theories/JsonProofs.v
theories/JsonProps.v
theories/EffSolverModel.v
theories/EffSolverSpec.v
theories/EffSolverProofs.v
theories/EffSolverNorm.v
theories/EffSolverOps.v
theories/EffSolverRun.v
theories/EffSolverClaims.v
theories/EffSolverProps.v
theories/RelModel.v
theories/RelSpec.v
theories/RelAlgebra.v
theories/RelState.v
theories/RelTransfer.v
theories/RelSound.v
theories/RelOps.v
theories/RelRun.v
theories/RelRecognize.v
theories/RelLoopSpec.v
theories/RelLoops.v
theories/RelExec.v
theories/RelCheck.v
theories/RelProps.v
theories/SerdeModel.v
theories/SerdeSpec.v
theories/SerdeTables.v
theories/SerdeEqual.v
theories/SerdeProofs.v
theories/SerdeRead.v
theories/SerdeProps.v
theories/UnifyModel.v
theories/UnifySpec.v
theories/UnifyBasics.v
theories/UnifyState.v
theories/UnifyProofs.v
theories/UnifySound.v
theories/UnifyMgu.v
theories/UnifyProps.v
theories/CoherenceModel.v
theories/CoherenceSpec.v
theories/CoherenceProofs.v
theories/CoherenceProps.v
theories/DestructureModel.v
theories/DestructureSpec.v
theories/DestructureProofs.v
theories/DestructureProps.v
theories/MatchModel.v
theories/MatchSpec.v
theories/MatchProofs.v
theories/MatchVariants.v
theories/MatchAccept.v
theories/MatchProps.v
theories/FrameModel.v
theories/FrameSpec.v
theories/FrameProofs.v
theories/FrameExample.v
theories/DeadStoreModel.v
theories/DeadStoreSpec.v
theories/DeadStoreProofs.v
theories/DeadStoreLive.v
theories/DeadStoreProps.v
theories/FrameChange.v
theories/FrameCells.v
theories/BranchForwardModel.v
theories/BranchForwardSpec.v
theories/BranchForwardProofs.v
theories/BranchForwardProps.v
theories/NegationModel.v
theories/NegationSpec.v
theories/NegationProofs.v
theories/NegationRuns.v
theories/NegationEnds.v
theories/NegationProps.v
theories/TailMergeModel.v
theories/TailMergeSpec.v
theories/FrameRename.v
theories/TailJumps.v
theories/TailMergeProofs.v
theories/TailMergeEnds.v
theories/TailMergeEqual.v
theories/TailMergeProps.v
theories/CleanupModel.v
theories/CleanupSpec.v
theories/CleanupBase.v
theories/CleanupSteps.v
theories/CleanupLeave.v
theories/CleanupLower.v
theories/CleanupProofs.v
theories/CleanupFlags.v
theories/CleanupProps.v
theories/NumberModel.v
theories/NumberSpec.v
theories/NumberProofs.v
theories/NumberProps.v
theories/FormatModel.v
theories/FormatSpec.v
theories/FormatProofs.v
theories/FormatProps.v
theories/TypeDeclModel.v
theories/TypeDeclSpec.v
theories/TypeDeclProofs.v
theories/TypeDeclCheck.v
theories/TypeDeclValues.v
theories/TypeDeclProps.v
theories/NameModel.v
theories/NameSpec.v
theories/NameProofs.v
theories/NameLookup.v
theories/NameProps.v
theories/InternModel.v
theories/InternSpec.v
theories/InternKinds.v
theories/InternSim.v
theories/InternFind.v
theories/InternProofs.v
theories/InternCanon.v
theories/InternPlace.v
theories/InternAgain.v
theories/InternMain.v
theories/InternProps.v
theories/BuilderModel.v
theories/BuilderSpec.v
theories/BuilderAlike.v
theories/BuilderProofs.v
theories/BuilderMain.v
theories/BuilderProps.v
theories/CopiesModel.v
theories/CopiesSpec.v
theories/CopiesSim.v
theories/CopiesRewrite.v
theories/CopiesPrune.v
theories/CopiesShare.v
theories/CopiesNarrow.v
theories/CopiesPipeline.v
theories/CopiesProps.v
theories/InlineModel.v
theories/InlineMachine.v
theories/InlineSpec.v
theories/InlineSim.v
theories/InlineCopy.v
theories/InlinePlan.v
theories/InlineAll.v
theories/InlineProps.v
theories/SnapModel.v
theories/SnapSpec.v
theories/SnapCapture.v
theories/SnapRestore.v
theories/SnapAgain.v
theories/SnapProps.v
theories/CacheModel.v
theories/CacheSpec.v
theories/CacheProofs.v
theories/CacheLive.v
theories/CacheSmooth.v
theories/CacheTidy.v
theories/CacheProps.v
theories/SugarModel.v
theories/SugarSpec.v
theories/SugarProofs.v
theories/SugarSim.v
theories/SugarFuel.v
theories/SugarProps.v
theories/DceModel.v
theories/DceSpec.v
theories/DceSim.v
theories/DceProofs.v
theories/DceJust.v
theories/DceStorage.v
theories/DcePass.v
theories/DceMachine.v
theories/DceProps.v
theories/MarkModel.v
theories/MarkSpec.v
theories/MarkLattice.v
theories/MarkMeaning.v
theories/MarkWalk.v
theories/MarkScan.v
theories/MarkSim.v
theories/MarkMachine.v
theories/MarkProps.v
theories/MarkRegionModel.v
theories/MarkRegionSpec.v
theories/MarkRegionProofs.v
theories/MarkRegionProps.v
theories/FloatModel.v
theories/FloatSpec.v
theories/FloatProofs.v
theories/FloatProps.v
theories/LicmModel.v
theories/LicmSpec.v
theories/LicmStatic.v
theories/LicmRoots.v
theories/LicmLoops.v
theories/LicmFind.v
theories/LicmWays.v
theories/LicmSim.v
theories/LicmShape.v
theories/LicmQuiet.v
theories/LicmProofs.v
theories/LicmToy.v
theories/LicmProps.v
theories/CompareModel.v
theories/CompareSpec.v
theories/CompareProofs.v
theories/CompareProps.v
theories/AliasNameModel.v
theories/AliasNameSpec.v
theories/AliasNameProofs.v
theories/AliasNameProps.v
theories/AliasSearchModel.v
theories/AliasSearchSpec.v
theories/AliasSearchProofs.v
theories/AliasSearchProps.v
