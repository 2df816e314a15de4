-Q theories Verif
theories/Base.v
theories/BaseFacts.v
theories/HashTable.v
theories/HashTableSpec.v
theories/HashTableFacts.v
theories/P_HashTable.v
theories/Random.v
theories/RandomSpec.v
theories/RandomFacts.v
theories/ShuffleFacts.v
theories/P_Random.v
theories/RealOps.v
theories/Uniform.v
theories/UniformFacts.v
theories/P_Uniform.v
theories/FileSys.v
theories/Checkpoint.v
theories/CheckpointSpec.v
theories/CheckpointFacts.v
theories/P_Checkpoint.v
theories/Profiler.v
theories/ProfilerSpec.v
theories/ProfilerFacts.v
theories/P_Profiler.v
theories/Progress.v
theories/ProgressSpec.v
theories/ProgressFacts.v
theories/P_Progress.v
theories/Driver.v
theories/DriverSpec.v
theories/DriverFacts.v
theories/DriverMain.v
theories/P_Driver.v
theories/SimParams.v
theories/ParamParser.v
theories/ParamSpec.v
theories/ParamLines.v
theories/ParamFacts.v
theories/ParamFile.v
theories/ParamNumbers.v
theories/P_Params.v
theories/Sums.v
theories/Lattice.v
theories/LatticeSpec.v
theories/LatticeFacts.v
theories/P_Lattice.v
theories/SumsFacts.v
theories/Kinetic.v
theories/KineticSpec.v
theories/KineticFacts.v
theories/P_Kinetic.v
theories/Strat.v
theories/StratSpec.v
theories/StratFacts.v
theories/P_Strat.v
theories/RField.v
theories/Blas.v
theories/BlasFacts.v
theories/MatProd.v
theories/MatSpec.v
theories/MatFacts.v
theories/TimeStep.v
theories/TimeStepSpec.v
theories/TimeStepFacts.v
theories/P_TimeStep.v
theories/GreenUpdate.v
theories/GreenSpec.v
theories/GreenFacts.v
theories/P_GreenUpdate.v
theories/Prepivot.v
theories/PrepivotFacts.v
theories/P_Prepivot.v
theories/Lapack.v
theories/LapackSpec.v
theories/LapackFacts.v
theories/TimeFlow.v
theories/TimeFlowSpec.v
theories/TimeFlowLoops.v
theories/TimeFlowFacts.v
theories/LapackExists.v
theories/P_TimeFlow.v
theories/GreenConstruct.v
theories/GreenConstructFacts.v
theories/P_GreenConstruct.v
theories/RandSource.v
theories/RandSourceFacts.v
theories/Sweep.v
theories/SweepSpec.v
theories/SweepFacts.v
theories/P_Sweep.v
theories/PhononSweep.v
theories/PhononSpec.v
theories/PhononFieldFacts.v
theories/PhononLoopFacts.v
theories/PhononFacts.v
theories/P_Phonon.v
theories/Accum.v
theories/Measure.v
theories/WickSpec.v
theories/MeasureSpec.v
theories/AccumFacts.v
theories/MeasureFacts.v
theories/MeasureSeqFacts.v
theories/P_Measure.v
theories/UMeasure.v
theories/UMeasureSpec.v
theories/UMeasureFacts.v
theories/UMeasureSeqFacts.v
theories/P_UMeasure.v
theories/PMeasure.v
theories/PMeasureSpec.v
theories/PMeasureFacts.v
theories/P_PMeasure.v
theories/BlockCyclic.v
theories/WindowFacts.v
theories/BlockCyclicSpec.v
theories/CyclicQRFacts.v
theories/CyclicTriFacts.v
theories/CyclicRotFacts.v
theories/P_BlockCyclic.v
theories/UnequalTime.v
theories/UnequalTimeSpec.v
theories/BlockFacts.v
theories/UnequalBuildFacts.v
theories/UnequalTimeFacts.v
theories/P_UnequalTime.v
theories/KineticExp.v
theories/KineticExpSpec.v
theories/KineticExpFacts.v
theories/RClosed.v
theories/Spectral.v
theories/LapackSyev.v
theories/P_KineticExp.v
theories/Threads.v
theories/ThreadsSpec.v
theories/ThreadsFacts.v
theories/ThreadSections.v
theories/ThreadSectionsFacts.v
theories/P_Threads.v
theories/Overflow.v
theories/OverflowSpec.v
theories/OverflowFacts.v
theories/P_Overflow.v
theories/IdealSpec.v
theories/IdealFacts.v
theories/IdealLink.v
theories/IdealRun.v
theories/P_Ideal.v
theories/ConfigFacts.v
theories/Simulation.v
theories/SimulationSpec.v
theories/SimulationFacts.v
theories/SimulationRun.v
theories/HalfFillSpec.v
theories/HalfFillFacts.v
theories/SimulationCase.v
theories/P_Simulation.v
theories/P_HalfFill.v
theories/DataFiles.v
theories/DataFilesSpec.v
theories/DataFilesFacts.v
theories/P_DataFiles.v
theories/FockSpec.v
theories/FockFacts.v
theories/FockWick.v
theories/FockExp.v
theories/HubbardSpec.v
theories/HubbardFacts.v
theories/HubbardWick.v
theories/HubbardLink.v
theories/P_Fock.v
theories/TrotterPos.v
theories/IdealChain.v
theories/ThermalSpec.v
theories/ThermalFacts.v
theories/ThermalRun.v
theories/ThermalResults.v
theories/P_Thermal.v
theories/Summary.v
theories/SummarySpec.v
theories/SummaryFacts.v
theories/P_Summary.v
theories/PhononCountSpec.v
theories/PhononCountFacts.v
theories/PhononCountRun.v
theories/PhononDecide.v
theories/PSummaryFacts.v
theories/P_PSummary.v
theories/Paths.v
theories/PathsSpec.v
theories/PathsFacts.v
theories/P_Paths.v
theories/TrotterSpec.v
theories/TrotterNorm.v
theories/TrotterBound.v
theories/TrotterFacts.v
theories/TrotterOps.v
theories/TrotterSym.v
theories/TrotterResults.v
theories/P_Trotter.v
theories/MixFacts.v
theories/MixChain.v
theories/MixMean.v
theories/MixSpec.v
theories/MixResults.v
theories/MixCase.v
theories/P_Mix.v
theories/Heap.v
theories/HeapSpec.v
theories/HeapRules.v
theories/HeapFacts.v
theories/HeapRun.v
theories/HeapMain.v
theories/HeapCase.v
theories/P_Heap.v
theories/BoxSpec.v
theories/BoxFacts.v
theories/BoxHeine.v
theories/PMoves.v
theories/PIdealSpec.v
theories/PKernels.v
theories/PWeightFacts.v
theories/PIdealLink.v
theories/PIdealRun.v
theories/P_PIdeal.v
theories/FMeasure.v
theories/FMeasureSpec.v
theories/FMeasureFacts.v
theories/FUMeasureFacts.v
theories/FRecoverFacts.v
theories/P_FMeasure.v
theories/PSimulation.v
theories/SpinSymSpec.v
theories/SpinSymFacts.v
theories/SpinSymMeas.v
theories/SpinSymRun.v
theories/FreeFacts.v
theories/P_Free.v
theories/PSimulationSpec.v
theories/PSimulationFacts.v
theories/PSimulationRun.v
theories/PSimulationCase.v
theories/P_PSimulation.v
theories/P_SpinSym.v
theories/FPMeasure.v
theories/FPMeasureFacts.v
theories/P_FPMeasure.v
theories/FDataFiles.v
theories/FDataFilesSpec.v
theories/FDataFilesFacts.v
theories/P_FDataFiles.v
theories/FSimulation.v
theories/FSimulationSpec.v
theories/FSimulationAvg.v
theories/FSimulationRun.v
theories/FSimulationBoth.v
theories/P_FSimulation.v
theories/FPSimulation.v
theories/FPSimulationSpec.v
theories/FPSimulationFacts.v
theories/FPSimulationRun.v
theories/FPSimulationBoth.v
theories/P_FPSimulation.v
