-Q theories Verif
theories/Base.v
theories/NDArray.v
theories/Validation.v
theories/Regex.v
theories/Optimizers.v
theories/Strategies.v
theories/Singleton.v
theories/Pair.v
theories/Path.v
theories/Api.v
theories/Debug.v
theories/Serde.v
theories/Spec.v
theories/BaseFacts.v
theories/ParserFacts.v
theories/RegexFacts.v
theories/ValidationFacts.v
theories/SumFacts.v
theories/ArrayFacts.v
theories/TensordotFacts.v
theories/DiagFacts.v
theories/SingletonFacts.v
theories/PairFacts.v
theories/StackedFacts.v
theories/PairMain.v
theories/PathFacts.v
theories/OrderFacts.v
theories/PathShape.v
theories/EinsumMain.v
theories/ValidationMain.v
theories/EinsumProps.v
theories/RelationFacts.v
theories/ReproFacts.v
theories/RoundFacts.v
theories/PlanFacts.v
theories/Examples.v
theories/EinsumCases.v
theories/AlgebraFacts.v
theories/StagedFacts.v
theories/WrapFacts.v
theories/SpecialCases.v
theories/PropsValidation.v
theories/PropsEinsum.v
theories/PropsLaws.v
theories/PropsPath.v
theories/PropsOrder.v
theories/HandFacts.v
theories/CompileFacts.v
theories/PropsHand.v
theories/SerdeFacts.v
theories/PropsSerde.v
theories/PropsNear.v
theories/TensordotMain.v
theories/PropsTensordot.v
theories/MisuseFacts.v
theories/PropsMisuse.v
theories/MismatchFacts.v
theories/PropsMismatch.v
theories/DiagAnyFacts.v
theories/DiagMemFacts.v
theories/GeneralFacts.v
theories/BroadcastAnyFacts.v
theories/PropsGeneral.v
theories/UnusedFacts.v
theories/ContractorFacts.v
theories/PropsUnused.v
theories/PropsContractors.v
theories/Overflow.v
theories/OverflowFacts.v
theories/PropsOverflow.v
theories/Limits.v
theories/LimitsFacts.v
theories/LimitsMain.v
theories/PropsLimits.v
theories/ViewFacts.v
theories/PropsView.v
theories/MessageFacts.v
theories/PropsMessages.v
theories/PropsRelation.v
theories/PropsRounding.v
theories/RangeFacts.v
theories/FloatFacts.v
theories/FloatMain.v
theories/PropsFloat.v
theories/PropsValues.v
theories/PropsRepro.v
theories/PropsPlan.v
theories/PropsDebug.v
theories/Work.v
theories/WorkFacts.v
theories/WorkMain.v
theories/PropsWork.v
theories/AssignFacts.v
theories/PropsAssign.v
theories/ProgramFacts.v
theories/PropsProgram.v
theories/RepoTests.v
theories/LoopFacts.v
theories/TestFacts.v
theories/PropsTests.v
theories/AdjointFacts.v
theories/BlockFacts.v
theories/UnitFacts.v
theories/PropsAlgebra.v
theories/ParamFacts.v
theories/Schedule.v
theories/PropsData.v
theories/Checked.v
theories/CheckedFacts.v
theories/PropsChecked.v
theories/FloatSigns.v
theories/FloatRound.v
theories/GradeFacts.v
theories/PropsGrade.v
theories/OrderCostFacts.v
theories/PropsOrderCost.v
theories/Storage.v
theories/StorageFacts.v
theories/StorageMain.v
theories/PropsStorage.v
theories/Builds.v
theories/BuildsFacts.v
theories/BuildsMain.v
theories/PropsBuilds.v
theories/DebugSpec.v
theories/DebugFacts.v
theories/PropsDebugText.v
theories/StorageExact.v
theories/PropsStorageExact.v
theories/DualFacts.v
theories/PropsDual.v
theories/TensordotRange.v
theories/PropsTensordotRange.v
theories/UniqueFacts.v
theories/PropsUnique.v
theories/BenchFacts.v
theories/PropsBench.v
theories/BackwardFacts.v
theories/PropsBackward.v
theories/PropsBackwardDot.v
theories/PropsSpread.v
theories/DotAlgebra.v
theories/PropsDotAlgebra.v
theories/PropsDotSpread.v
theories/PropsDotAxes.v
theories/PropsDotNest.v
theories/PropsReshape.v
theories/Iterators.v
theories/IteratorsFacts.v
theories/PropsIterators.v
theories/NdSchedule.v
theories/NdScheduleFacts.v
theories/NdLayoutFacts.v
theories/PropsNdarray.v
theories/TwinFacts.v
theories/PropsTwin.v
theories/ExactFacts.v
theories/PropsExact.v
theories/ExactSpec.v
theories/ReduceFacts.v
theories/PropsReduce.v
theories/WritingFacts.v
theories/PropsWriting.v
theories/OuterFacts.v
theories/PropsTensordotBits.v
theories/PropsDocs.v
theories/PropsChain.v
theories/PropsStaged.v
theories/PropsCalls.v
theories/PropsStoredSteps.v
theories/PropsMethods.v
