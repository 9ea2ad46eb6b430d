-Q theories Verif
theories/Arith.v
theories/Vec.v
theories/Prim.v
theories/Cons.v
theories/Sketch.v
theories/Solve.v
theories/Decomp.v
theories/Serde.v
theories/Api.v
theories/ArithR.v
theories/ArithF.v
theories/HeapLemmas.v
theories/SolveLemmas.v
theories/BookLemmas.v
theories/WfLemmas.v
theories/DataLemmas.v
theories/Spec.v
theories/SpecLemmas.v
theories/BookWitness.v
theories/PropsBook.v
theories/ExactSpec.v
theories/ExactLemmas.v
theories/DerivLemmas.v
theories/GradLemmas.v
theories/PureLemmas.v
theories/SignLemmas.v
theories/LossLemmas.v
theories/PropsLoss.v
theories/RMat.v
theories/SolverSpec.v
theories/SearchLemmas.v
theories/StepLemmas.v
theories/ExactRun.v
theories/RestLemmas.v
theories/MotionSpec.v
theories/NlsMat.v
theories/StayLemmas.v
theories/SolverWitness.v
theories/SolverForms.v
theories/PropsSolver.v
theories/DecompSpec.v
theories/DecompLemmas.v
theories/OrderLemmas.v
theories/WalkLemmas.v
theories/FaceLemmas.v
theories/OctLemmas.v
theories/ExactDecomp.v
theories/PolygonLemmas.v
theories/PolygonExact.v
theories/GeomLemmas.v
theories/DecompWitness.v
theories/RingPolyLemmas.v
theories/TangentLemmas.v
theories/DecompForms.v
theories/DecompExamples.v
theories/PropsDecomp.v
theories/SerdeSpec.v
theories/SerdeLemmas.v
theories/SerdeForms.v
theories/PropsSerde.v
theories/FiniteSpec.v
theories/FiniteForms.v
theories/PropsFinite.v
theories/FloatLemmas.v
theories/FloatSpec.v
theories/FloatBound.v
theories/FloatCons.v
theories/FloatForms.v
theories/PropsFloat.v
theories/CellSpec.v
theories/CellForms.v
theories/CheckLemmas.v
theories/CellWitness.v
theories/PropsCells.v
theories/UpdateLemmas.v
theories/ConserveLemmas.v
theories/MotionLemmas.v
theories/NlsDescent.v
theories/MotionExamples.v
theories/PropsMotion.v
theories/Borrow.v
theories/BorrowSpec.v
theories/BorrowLemmas.v
theories/BorrowWrites.v
theories/PropsBorrow.v
theories/ConvergeLemmas.v
theories/PropsConverge.v
theories/SymSpec.v
theories/SymSim.v
theories/SymGeo.v
theories/SymLemmas.v
theories/SymForms.v
theories/SymWitness.v
theories/SymExamples.v
theories/PropsSym.v
theories/RoundSpec.v
theories/RoundPi.v
theories/RoundTurn.v
theories/RoundRem.v
theories/RoundAngle.v
theories/RoundWalk.v
theories/RoundArea.v
theories/RoundExamples.v
theories/PropsRound.v
theories/NumSpec.v
theories/NumLemmas.v
theories/MonoFloat.v
theories/MonoForms.v
theories/PropsMono.v
theories/LinearSpec.v
theories/LinearLemmas.v
theories/LinearForms.v
theories/ChainWitness.v
theories/PropsLinear.v
theories/Bench.v
theories/BenchSpec.v
theories/BuildLemmas.v
theories/BenchLemmas.v
theories/CircleLemmas.v
theories/RectLemmas.v
theories/TightLemmas.v
theories/PropsBench.v
theories/Value.v
theories/ValueSpec.v
theories/ValueLemmas.v
theories/ValueForms.v
theories/PropsValue.v
theories/GraphLemmas.v
theories/RateLemmas.v
theories/RateForms.v
theories/PropsRate.v
theories/SlowSpec.v
theories/SlowLemmas.v
theories/SlowForms.v
theories/PropsSlow.v
theories/RestSpec.v
theories/RestFloat.v
theories/RestForms.v
theories/PropsRest.v
theories/PanicSpec.v
theories/PanicLemmas.v
theories/PanicExact.v
theories/PropsPanic.v
theories/StallSpec.v
theories/StallLemmas.v
theories/TrackLemmas.v
theories/StallExamples.v
theories/PropsStall.v
theories/AccuracySpec.v
theories/AccuracyLemmas.v
theories/AccuracyForms.v
theories/AccuracyExamples.v
theories/PropsAccuracy.v
theories/RepoTests.v
theories/TreeSpec.v
theories/TreeLemmas.v
theories/TreeForms.v
theories/TreeRun.v
theories/TreeExamples.v
theories/PropsTree.v
theories/SlopeSpec.v
theories/SlopeLemmas.v
theories/SlopeForms.v
theories/SlopeNorm.v
theories/SlopeRun.v
theories/SlopeExamples.v
theories/PropsSlope.v
theories/Message.v
theories/MessageSpec.v
theories/MessageLemmas.v
theories/PropsMessage.v
theories/PairSpec.v
theories/PairLemmas.v
theories/PairExamples.v
theories/PropsPair.v
theories/MirrorSpec.v
theories/MirrorRel.v
theories/MirrorLemmas.v
theories/MirrorExamples.v
theories/PropsMirror.v
theories/EmbedSpec.v
theories/EmbedLemmas.v
theories/EmbedExamples.v
theories/PropsEmbed.v
theories/HandleSpec.v
theories/HandleLemmas.v
theories/PropsHandle.v
theories/AngleSpec.v
theories/AngleLemmas.v
theories/AngleForms.v
theories/AngleExamples.v
theories/PropsAngle.v
theories/ScaleSpec.v
theories/ScaleRel.v
theories/ScaleLemmas.v
theories/ScaleExamples.v
theories/PropsScale.v
theories/ResumeSpec.v
theories/ResumeLemmas.v
theories/ResumeExamples.v
theories/PropsResume.v
theories/SerdeSolve.v
theories/PropsSerdeSolve.v
theories/SpareSpec.v
theories/SpareLemmas.v
theories/SpareForms.v
theories/SpareBfgs.v
theories/SpareExamples.v
theories/SpareLm.v
theories/SpareDiag.v
theories/PropsSpare.v
theories/CreateSpec.v
theories/CreateLemmas.v
theories/PropsCreate.v
