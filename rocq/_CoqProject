-Q theories Verif

theories/Py.v
theories/Expr.v
theories/SpecFormula.v
theories/ExprFacts.v
theories/ExprProps.v
theories/Properties_Expr.v
theories/Dec.v
theories/DecFacts.v
theories/PyText.v
theories/SpecSafe.v
theories/SpecReading.v
theories/PyTextFacts.v
theories/ParseFacts.v
theories/CompileFacts.v
theories/SafeFacts.v
theories/TextProps.v
theories/Properties_Text.v
theories/Model.v
theories/DictFacts.v
theories/ModelFacts.v
theories/Solver.v
theories/SpecSolve.v
theories/SearchFacts.v
theories/LoopFacts.v
theories/EnumFacts.v
theories/CodeFacts.v
theories/HistoryFacts.v
theories/TotalFacts.v
theories/SetupFacts.v
theories/SolveFacts.v
theories/MasterFacts.v
theories/SolverProps.v
theories/SolverMore.v
theories/SpecTimer.v
theories/TimerFacts.v
theories/SolverExtra.v
theories/SolverCases.v
theories/Properties_Model.v
theories/SolverAgain.v
theories/Properties_Solver.v
theories/Optimize.v
theories/SpecOptimize.v
theories/OptimizeFacts.v
theories/TraceFacts.v
theories/OptimizeRun.v
theories/OptimizeProps.v
theories/OptimizeMore.v
theories/OptimizeCases.v
theories/Properties_Optimize.v
theories/SpecInterleave.v
theories/InterleaveFacts.v
theories/InterleaveStats.v
theories/Properties_Interleave.v
theories/Puzzle.v
theories/SpecPuzzle.v
theories/NameFacts.v
theories/PuzzleFacts.v
theories/Queens.v
theories/SpecQueens.v
theories/QueensFacts.v
theories/Properties_Queens.v
theories/Graph.v
theories/SpecGraph.v
theories/GraphFacts.v
theories/Properties_Graph.v
theories/Sudoku.v
theories/SpecSudoku.v
theories/SudokuFacts.v
theories/Properties_Sudoku.v
theories/Nonogram.v
theories/SpecNonogram.v
theories/NonogramFacts.v
theories/Properties_Nonogram.v
theories/Knapsack.v
theories/SpecKnapsack.v
theories/KnapsackFacts.v
theories/KnapsackSingle.v
theories/Properties_Knapsack.v
theories/Cryptarithm.v
theories/SpecCryptarithm.v
theories/CryptarithmText.v
theories/CryptarithmWord.v
theories/CryptarithmFacts.v
theories/CryptarithmChain.v
theories/Properties_Cryptarithm.v
theories/AsciiMap.v
theories/SpecAscii.v
theories/AsciiCells.v
theories/AsciiGroups.v
theories/AsciiFacts.v
theories/Properties_Ascii.v
theories/Einstein.v
theories/SpecEinstein.v
theories/EinsteinFacts.v
theories/SpecFirst.v
theories/PuzzleTruncate.v
theories/PuzzleOrder.v
theories/PuzzleCuts.v
theories/CryptarithmCut.v
theories/Properties_First.v
theories/EinsteinUnique.v
theories/Properties_Einstein.v
theories/SpecOrder.v
theories/OrderFacts.v
theories/TimeoutFacts.v
theories/Properties_Policy.v
theories/DemoImage.v
theories/SpecImage.v
theories/ImageFacts.v
theories/Properties_Image.v
theories/DemoStats.v
theories/SpecStats.v
theories/StatsFacts.v
theories/Properties_Stats.v
theories/SpecIsolation.v
theories/IsolationFacts.v
theories/Properties_Isolation.v
theories/OptimizeSingle.v
theories/SpecExact.v
theories/CompanionFacts.v
theories/Properties_Exact.v
theories/DemoPrint.v
theories/DemoRun.v
theories/DemoArgs.v
theories/SpecPrint.v
theories/SpecArgs.v
theories/PrintFacts.v
theories/PrintCryFacts.v
theories/DemoRunFacts.v
theories/ArgsFacts.v
theories/Properties_Print.v
theories/SpecLazy.v
theories/LazyFacts.v
theories/Properties_Lazy.v
theories/PyLogic.v
theories/SpecText.v
theories/StrFacts.v
theories/PyLogicFacts.v
theories/Properties_Str.v
theories/DemoMore.v
theories/SpecDemo.v
theories/DemoMoreFacts.v
theories/Properties_Demo.v
theories/Forbidden.v
theories/ForbiddenFacts.v
theories/ForbiddenCases.v
theories/Properties_Forbidden.v
theories/ReadingFacts.v
theories/ReadingProps.v
theories/SpecSays.v
theories/ReadingSolve.v
theories/Properties_Reading.v
theories/DemoModel.v
theories/SpecShow.v
theories/ShowFacts.v
theories/Properties_Show.v
theories/Json.v
theories/SpecJson.v
theories/JsonFacts.v
theories/DemoInput.v
theories/SpecInput.v
theories/InputFacts.v
theories/Properties_Input.v
theories/ParameterFacts.v
theories/DemoMain.v
theories/SpecMain.v
theories/ArgFacts.v
theories/MainFacts.v
theories/Properties_Main.v
theories/Program.v
theories/SpecProgram.v
theories/ProgramFacts.v
theories/ProgramRun.v
theories/ProgramInv.v
theories/ProgramProps.v
theories/ProgramStats.v
theories/ProgramTotal.v
theories/ProgramMore.v
theories/ProgramCases.v
theories/Properties_Program.v
theories/UndefinedFacts.v
theories/Repr.v
theories/SpecRepr.v
theories/ReprFacts.v
theories/ReprCases.v
theories/Properties_Repr.v
theories/OptProgram.v
theories/SpecOptProgram.v
theories/OptProgramFacts.v
theories/OptProgramInv.v
theories/OptProgramSim.v
theories/OptProgramProps.v
theories/OptProgramTotal.v
theories/OptProgramCases.v
theories/Properties_OptProgram.v
theories/PuzzleUser.v
theories/SpecPuzzleUser.v
theories/PuzzleUserFacts.v
theories/PuzzleRel.v
theories/PuzzleUserRel.v
theories/PuzzleUserProps.v
theories/PuzzleUserProps2.v
theories/Properties_PuzzleUser.v
theories/HeapSolver.v
theories/SpecHeap.v
theories/HeapFacts.v
theories/HeapProps.v
theories/HeapCases.v
theories/Properties_Heap.v
theories/PuzzleAgain.v
theories/SpecPuzzleAgain.v
theories/PuzzleAgainFacts.v
theories/PuzzleAgainProps.v
theories/Properties_PuzzleAgain.v
theories/PuzzleShared.v
theories/SpecPuzzleShared.v
theories/PuzzleFrame.v
theories/PuzzleSharedFacts.v
theories/PuzzleSharedProps.v
theories/Properties_PuzzleShared.v
theories/KnapsackUser.v
theories/SpecKnapsackUser.v
theories/ParamFacts.v
theories/KnapsackUserFacts.v
theories/Properties_KnapsackUser.v
theories/SolverWatch.v
theories/SpecWatch.v
theories/WatchFacts.v
theories/WatchProps.v
theories/WatchCases.v
theories/WatchCost.v
theories/Properties_Watch.v
theories/OptimizeWatch.v
theories/SpecBound.v
theories/BoundFacts.v
theories/BoundProps.v
theories/BoundCases.v
theories/Properties_Bound.v
theories/OptimizeCut.v
theories/OptimizeErrors.v
theories/CutCases.v
theories/Properties_Cut.v
theories/PuzzleWatch.v
theories/SpecTries.v
theories/TriesFacts.v
theories/TriesGraph.v
theories/TriesQueens.v
theories/TriesSudoku.v
theories/TriesCases.v
theories/Properties_Tries.v
theories/CryWatch.v
theories/SpecDigits.v
theories/TriesCry.v
theories/DigitsCases.v
theories/Properties_Digits.v
theories/NonogramWatch.v
theories/SpecRuns.v
theories/TriesRuns.v
theories/TriesRuns2.v
theories/TriesRuns3.v
theories/RunsCases.v
theories/Properties_Runs.v
theories/KnapsackWatch.v
theories/SpecSelections.v
theories/TriesKnap.v
theories/TriesKnap2.v
theories/TriesKnap3.v
theories/KnapCases.v
theories/Properties_Selections.v
theories/OptimizeCost.v
theories/CostOptimize.v
theories/CostKnap.v
theories/Properties_Cost.v
theories/OptimizeOrder.v
theories/OptimizeVisits.v
theories/VisitCases.v
theories/CostKnap2.v
theories/Properties_OptOrder.v
theories/SpecSpace.v
theories/CostSpace.v
theories/CostSpace2.v
theories/SpaceCases.v
theories/Properties_Space.v
theories/SpecPrune.v
theories/PruneFacts.v
theories/CostSpace3.v
theories/PruneCases.v
theories/TruncateFacts.v
theories/SameFacts.v
theories/Properties_Prune.v
