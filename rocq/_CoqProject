-Q theories Verif
theories/TaskletModel.v
theories/TaskletSpec.v
theories/TaskletProofs.v
theories/TaskletProps.v
theories/ParLoopModel.v
theories/ParLoopSpec.v
theories/ParLoopProofs.v
theories/ParLoopProps.v
theories/ParamModel.v
theories/ParamSpec.v
theories/ParamProofs.v
theories/ParamProps.v
theories/ParRegModel.v
theories/ParRegSpec.v
theories/ParRegProofs.v
theories/ParRegProps.v
theories/SimLoopModel.v
theories/SimLoopSpec.v
theories/SimLoopProofs.v
theories/SimLoopProps.v
theories/StepFileModel.v
theories/StepFileSpec.v
theories/StepFileProofs.v
theories/StepFileProps.v
theories/TimeIntegModel.v
theories/TimeIntegSpec.v
theories/TimeIntegProofs.v
theories/TimeIntegProps.v
theories/Num.v
theories/NewtonModel.v
theories/NewtonSpec.v
theories/NewtonProofs.v
theories/NewtonProps.v
theories/CacheModel.v
theories/CacheSpec.v
theories/CacheProofs.v
theories/CacheProps.v
theories/AuxDofModel.v
theories/AuxDofSpec.v
theories/AuxDofProofs.v
theories/AuxDofProps.v
theories/FloatTextModel.v
theories/FloatTextSpec.v
theories/FloatTextProofs.v
theories/RestartModel.v
theories/RestartSpec.v
theories/RestartProofs.v
theories/RestartProps.v
theories/ResumeModel.v
theories/ResumeSpec.v
theories/ResumeProofs.v
theories/ResumeProps.v
theories/PvdModel.v
theories/PvdSpec.v
theories/PvdProofs.v
theories/PvdProps.v
theories/TimerModel.v
theories/TimerSpec.v
theories/TimerProofs.v
theories/TimerProps.v
theories/GuardModel.v
theories/GuardSpec.v
theories/GuardProofs.v
theories/GuardProps.v
theories/AllocModel.v
theories/AllocSpec.v
theories/AllocProofs.v
theories/AllocProps.v
theories/MpiBufModel.v
theories/MpiBufSpec.v
theories/MpiBufProofs.v
theories/MpiBufProps.v
theories/FractureModel.v
theories/FractureProofs.v
theories/FractureProps.v
theories/BoIdxModel.v
theories/BoIdxSpec.v
theories/BoIdxProofs.v
theories/BoIdxProps.v
theories/BoVarsModel.v
theories/BoVarsSpec.v
theories/BoVarsProofs.v
theories/BoStableProofs.v
theories/BoContProofs.v
theories/BoVarsProps.v
theories/BoNewtonModel.v
theories/BoNewtonSpec.v
theories/BoNewtonProofs.v
theories/BoNewtonEffect.v
theories/BoNewtonSat.v
theories/BoNewtonMore.v
theories/BoNewtonProps.v
theories/PvsModel.v
theories/PvsSpec.v
theories/PvsProofs.v
theories/PvsNewtonProofs.v
theories/PvsProps.v
theories/FluxModel.v
theories/ResidualModel.v
theories/FluxSpec.v
theories/FluxProofs.v
theories/ResidualProofs.v
theories/FluxGridProofs.v
theories/FluxProps.v
theories/BlockInvModel.v
theories/BiCGModel.v
theories/BiCGSpec.v
theories/BiCGProofs.v
theories/CriterionProofs.v
theories/BlockInvProofs.v
theories/BiCGProps.v
theories/MpiModel.v
theories/MpiSpec.v
theories/MpiProofs.v
theories/MpiLemmas.v
theories/GatherModel.v
theories/GatherSpec.v
theories/GatherProofs.v
theories/GatherProps.v
theories/GlobalIndexModel.v
theories/GlobalIndexSpec.v
theories/GlobalIndexProofs.v
theories/GlobalIndexProps.v
theories/ExchangeModel.v
theories/MpiExchange.v
theories/ForeignModel.v
theories/ForeignSpec.v
theories/ForeignProofs.v
theories/ForeignReach.v
theories/ForeignProps.v
theories/DomesticModel.v
theories/DomesticSpec.v
theories/DomesticProofs.v
theories/VectorModel.v
theories/VectorSpec.v
theories/VectorProofs.v
theories/VectorSums.v
theories/MpiLift.v
theories/PipelineModel.v
theories/PipelineSpec.v
theories/PipelineProofs.v
theories/PipelineRun.v
theories/VectorProps.v
theories/CommModel.v
theories/CommSpec.v
theories/CommProofs.v
theories/BorderProofs.v
theories/CommProps.v
theories/BorderProps.v
theories/FdModel.v
theories/FdSpec.v
theories/FdProofs.v
theories/FdProps.v
theories/StencilModel.v
theories/StencilSpec.v
theories/StencilProofs.v
theories/StencilProps.v
theories/TpfaModel.v
theories/TpfaSpec.v
theories/TpfaProofs.v
theories/TpfaProps.v
theories/FvLinModel.v
theories/FvLinSpec.v
theories/FvLinProofs.v
theories/FvLinProps.v
theories/StartModel.v
theories/StartSpec.v
theories/StartProofs.v
theories/StartProps.v
theories/ArtModel.v
theories/ArtSpec.v
theories/ArtProofs.v
theories/ArtProps.v
theories/DarcyModel.v
theories/DarcySpec.v
theories/DarcyProofs.v
theories/DarcyProps.v
theories/RateModel.v
theories/RateSpec.v
theories/RateProofs.v
theories/RateProps.v
theories/PhVarsModel.v
theories/PhVarsSpec.v
theories/PhVarsProofs.v
theories/PhVarsProps.v
theories/LocResModel.v
theories/LocResSpec.v
theories/LocResProofs.v
theories/LocResProps.v
theories/VcfvModel.v
theories/VcfvSpec.v
theories/VcfvPoints.v
theories/VcfvProofs.v
theories/VcfvVolumes.v
theories/VcfvHex.v
theories/VcfvPlane.v
theories/VcfvLocal.v
theories/VcfvProps.v
theories/OvMatrixModel.v
theories/OvMatrixSpec.v
theories/OvMatrixProofs.v
theories/OvMatrixValues.v
theories/OvMatrixSums.v
theories/OvMatrixRun.v
theories/OvMatrixProps.v
theories/BoExtModel.v
theories/BoExtSpec.v
theories/BoExtProofs.v
theories/BoExtTracks.v
theories/BoExtFlux.v
theories/BoExtFlow.v
theories/BoExtProps.v
theories/PropSysModel.v
theories/PropSysSpec.v
theories/PropSysProofs.v
theories/PropSysProps.v
theories/ParSolverModel.v
theories/ParSolverSpec.v
theories/ParSolverProofs.v
theories/ParSolverProps.v
theories/BoMixModel.v
theories/BoMixSpec.v
theories/BoMixProofs.v
theories/BoMixProps.v
theories/VtkOutModel.v
theories/VtkOutSpec.v
theories/VtkOutProofs.v
theories/VtkNames.v
theories/VtkFaces.v
theories/VtkOutProps.v
theories/ForchModel.v
theories/ForchSpec.v
theories/ForchProofs.v
theories/ForchLine.v
theories/ForchProps.v
theories/AdaptModel.v
theories/AdaptSpec.v
theories/AdaptProofs.v
theories/AdaptData.v
theories/AdaptTree.v
theories/AdaptProps.v
theories/PffModel.v
theories/PffSpec.v
theories/PffProofs.v
theories/PffProps.v
theories/FracIqModel.v
theories/FracIqSpec.v
theories/FracIqProofs.v
theories/FracIqProps.v
theories/ConvWModel.v
theories/ConvWSpec.v
theories/ConvWProps.v
theories/BoIqModel.v
theories/BoIqSpec.v
theories/BoIqProofs.v
theories/BoIqProps.v
theories/BoModModel.v
theories/BoModSpec.v
theories/BoModProps.v
theories/ExtTabModel.v
theories/ExtTabSpec.v
theories/ExtTabProofs.v
theories/ExtTabProps.v
theories/DeckInitModel.v
theories/DeckInitSpec.v
theories/DeckInitProofs.v
theories/DeckInitProps.v
theories/BrineInitModel.v
theories/BrineInitSpec.v
theories/BrineInitProps.v
theories/SolvInitModel.v
theories/SolvInitSpec.v
theories/SolvInitProps.v
theories/BoIqTabProps.v
theories/MicpInitModel.v
theories/MicpInitSpec.v
theories/MicpInitProps.v
