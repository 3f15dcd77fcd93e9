-Q theories Verif
theories/Model/Num.v
theories/Model/Prelude.v
theories/Model/Evaluate.v
theories/Model/Individual.v
theories/Spec/Solution.v
theories/Proofs/Lists.v
theories/Proofs/QNum.v
theories/Proofs/EvalFacts.v
theories/Model/Config.v
theories/Model/Crossover.v
theories/Model/Split.v
theories/Spec/Crossover.v
theories/Proofs/CrossoverFacts.v
theories/Proofs/SplitStruct.v
theories/Proofs/EvalThms.v
theories/Properties/ExampleData.v
theories/Properties/P_Evaluate.v
theories/Properties/P_Crossover.v
theories/Proofs/SplitQueue.v
theories/Proofs/SplitOpt.v
theories/Proofs/SplitPart.v
theories/Spec/Split.v
theories/Proofs/SplitThms.v
theories/Proofs/BellmanOpt.v
theories/Proofs/SplitMain.v
theories/Properties/P_Split.v
theories/Model/Sector.v
theories/Model/Random.v
theories/Proofs/SmallFacts.v
theories/Properties/P_Small.v
theories/Model/Matrix.v
theories/Proofs/MatrixFacts.v
theories/Properties/P_Matrix.v
theories/Properties/P_Population.v
theories/Model/Population.v
theories/Model/LinkedList.v
theories/Model/LocalSearch.v
theories/Proofs/LinkFacts.v
theories/Spec/LocalSearch.v
theories/Spec/LocalOptimum.v
theories/Spec/Repro.v
theories/Proofs/LsState.v
theories/Proofs/LsMoves.v
theories/Proofs/LsEffect.v
theories/Proofs/LsDelta.v
theories/Proofs/LsStar.v
theories/Proofs/LsStarQ.v
theories/Proofs/LsLocal.v
theories/Proofs/LsSearch.v
theories/Proofs/LsRun.v
theories/Proofs/LsRunQ.v
theories/Proofs/LsOptimum.v
theories/Proofs/Repro.v
theories/Proofs/LsHistory.v
theories/Spec/Library.v
theories/Proofs/PopFacts.v
theories/Proofs/PopAdd.v
theories/Proofs/RustLib.v
theories/Proofs/PopThms.v
theories/Proofs/PopRun.v
theories/Proofs/PopQ.v
theories/Proofs/BpdFacts.v
theories/Spec/Population.v
theories/Proofs/PopMain.v
theories/Properties/P_LocalSearch.v
theories/Model/World.v
theories/Model/Schedule.v
theories/Model/RuinRecreate.v
theories/Model/Genetic.v
theories/Spec/RuinRecreate.v
theories/Spec/Recreate.v
theories/Spec/Genetic.v
theories/Proofs/RrRuin.v
theories/Proofs/RrRuinRun.v
theories/Proofs/RrRecreate.v
theories/Proofs/RrRun.v
theories/Proofs/RrQ.v
theories/Proofs/RrMachine.v
theories/Proofs/Streams.v
theories/Proofs/GaInv.v
theories/Proofs/GaQ.v
theories/Proofs/GaClock.v
theories/Proofs/GaBound.v
theories/Proofs/GaEnds.v
theories/Proofs/Fleet.v
theories/Properties/P_RuinRecreate.v
theories/Properties/P_Recreate.v
theories/Model/NumReal.v
theories/Model/NumFloat.v
theories/Proofs/ExpBound.v
theories/Properties/P_Schedule.v
theories/Properties/P_Genetic.v
theories/Model/Decomposition.v
theories/Spec/Decomposition.v
theories/Proofs/Decompose.v
theories/Proofs/DecomposeQ.v
theories/Proofs/DgaSub.v
theories/Proofs/DgaInst.v
theories/Proofs/DgaInv.v
theories/Proofs/DgaClock.v
theories/Proofs/DgaEnds.v
theories/Proofs/FuelMore.v
theories/Properties/P_Decomposition.v
theories/Properties/P_Decomposed.v
theories/Model/Text.v
theories/Model/Parser.v
theories/Model/Display.v
theories/Model/ConfigFile.v
theories/Spec/Output.v
theories/Spec/Instance.v
theories/Spec/ConfigFile.v
theories/Spec/Floats.v
theories/Proofs/TextFacts.v
theories/Proofs/OutputFacts.v
theories/Proofs/ParserFacts.v
theories/Proofs/ConfigFacts.v
theories/Proofs/FloatFacts.v
theories/Proofs/FloatPenalty.v
theories/Properties/P_Files.v
theories/Properties/P_Config.v
theories/Properties/P_Floats.v
theories/Model/Main.v
theories/Spec/Program.v
theories/Proofs/ProgramFacts.v
theories/Properties/P_Program.v
theories/Properties/P_Ends.v
theories/Proofs/FloatRun.v
theories/Proofs/FloatFine.v
theories/Properties/P_FloatRun.v
theories/Spec/FloatProgram.v
theories/Proofs/FloatStart.v
theories/Proofs/FloatDistance.v
theories/Properties/P_FloatProgram.v
theories/Properties/P_FloatFine.v
theories/Properties/P_FloatElite.v
theories/Properties/P_LocalOptimum.v
theories/Properties/P_Repro.v
theories/Spec/FloatDecomposed.v
theories/Proofs/DgaFloat.v
theories/Proofs/DgaFloatInv.v
theories/Properties/P_FloatDecomposed.v
theories/Properties/P_FloatParts.v
theories/Properties/P_FloatFraction.v
theories/Spec/FloatSearch.v
theories/Proofs/FloatMove.v
theories/Proofs/FloatDelta.v
theories/Proofs/FloatLs.v
theories/Proofs/FloatHang.v
theories/Properties/P_FloatSearch.v
theories/Proofs/FloatOptimum.v
theories/Proofs/FloatStar.v
theories/Properties/P_FloatOptimum.v
theories/Spec/PenaltyTrace.v
theories/Proofs/GaPenalty.v
theories/Properties/P_Penalty.v
theories/Spec/FloatSplit.v
theories/Proofs/FloatSplitQueue.v
theories/Proofs/FloatSplitRun.v
theories/Properties/P_FloatSplit.v
theories/Proofs/FloatBellman.v
theories/Proofs/FloatBellmanRun.v
theories/Properties/P_FloatBellman.v
theories/Proofs/FloatEnds.v
theories/Properties/P_FloatEnds.v
theories/Spec/FloatTotal.v
theories/Properties/P_FloatTotal.v
theories/Proofs/FirstFit.v
theories/Properties/P_Fleet.v
theories/Proofs/SplitFresh.v
theories/Properties/P_SplitFresh.v
