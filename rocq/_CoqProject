-Q theories Verif
theories/Num.v
theories/Sums.v
theories/Tableau.v
theories/TableauProofs.v
theories/Props_Tableau.v
theories/Backend.v
theories/Props_Backend.v
theories/Wrappers.v
theories/Props_Wrappers.v
theories/Solver.v
theories/Bland.v
theories/SolverBase.v
theories/SolverStep.v
theories/Simplex.v
theories/SimplexLoop.v
theories/Hist.v
theories/Updates.v
theories/Core.v
theories/CoreSolve.v
theories/Propagate.v
theories/OptSelect.v
theories/Weak.v
theories/WeakHist.v
theories/Optimize.v
theories/Spec.v
theories/Prepare.v
theories/Propagator.v
theories/Eps.v
theories/RationalQ.v
theories/World.v
theories/ThreadOk.v
theories/WorldProofs.v
theories/Reach.v
theories/WeakReach.v
theories/Queue.v
theories/Complete.v
theories/Track.v
theories/Observe.v
theories/ObserveProofs.v
theories/ObserveWeak.v
theories/Props_Solver.v
theories/Props_Decision.v
theories/Props_Global.v
theories/Props_Facts.v
theories/Examples.v
theories/Progress.v
theories/Props_Progress.v
theories/Props_Equality.v
theories/Props_Config.v
theories/Props_Equality2.v
theories/Props_Terminate.v
theories/Props_EmptyRow.v
theories/Parsing.v
theories/ParseSpec.v
theories/ParseNum.v
theories/ParseProofs.v
theories/ParseSum.v
theories/ParseTheory.v
theories/ParseAtoms.v
theories/ParsePrograms.v
theories/ParseSyntax.v
theories/Props_Parsing.v
theories/Api.v
theories/Props_Options.v
theories/Props_Print.v
theories/Props_Api.v
theories/Props_Bounds.v
theories/Race.v
theories/RaceProofs.v
theories/Props_Race.v
theories/Props_Optimize.v
theories/Props_Program.v
theories/Grammar.v
theories/Props_Grammar.v
theories/Main.v
theories/Props_Main.v
theories/Props_EndToEnd.v
theories/Checks.v
theories/ChecksProofs.v
theories/Props_Checks.v
theories/Watch.v
theories/Props_Watch.v
theories/Lifecycle.v
theories/Props_Lifecycle.v
theories/Props_Printed.v
theories/App.v
theories/Props_App.v
theories/Cast.v
theories/Props_Cast.v
theories/Props_Optimum.v
theories/Props_Threads.v
theories/Props_Propagation.v
theories/Props_Clauses.v
theories/Props_Unbounded.v
theories/Problem.v
theories/Props_Problem.v
theories/Props_Cases.v
theories/Props_Answers.v
theories/Props_Settings.v
theories/Props_Dialogue.v
theories/Literals.v
theories/Props_Literals.v
theories/Counters.v
theories/Props_Counters.v
theories/Props_Version.v
