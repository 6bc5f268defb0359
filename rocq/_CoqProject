-Q theories Verif
theories/ChunkModel.v
theories/ChunkSpec.v
theories/ChunkPow2.v
theories/ChunkSolve.v
theories/BlockDiag.v
theories/BlockDiagProofs.v
theories/ChunkInst.v
theories/Props_Sched.v
theories/Props_Chunk.v
theories/NewtonModel.v
theories/NewtonProofs.v
theories/Props_Newton.v
theories/Props_NewtonAffine.v
theories/RField.v
theories/ZmodTac.v
theories/Ode.v
theories/OdeAdjoint.v
theories/OdeForward.v
theories/OdeReal.v
theories/OdeDiff.v
theories/OdeAffine.v
theories/OdeApi.v
theories/Props_Ode.v
theories/Interp.v
theories/Props_Interp.v
theories/Torch.v
theories/Scaling.v
theories/Temperature.v
theories/Props_Scaling.v
theories/Deriv.v
theories/Slices.v
theories/Hardening.v
theories/Props_Hardening.v
theories/Flow.v
theories/Props_Flow.v
theories/Damage.v
theories/Models.v
theories/Props_Models.v
theories/Experiments.v
theories/Props_Exp.v
theories/Cycle.v
theories/Props_Cycle.v
theories/Utility.v
theories/Props_Utility.v
theories/Inference.v
theories/Props_Inference.v
theories/PipelineR.v
theories/Pipeline.v
theories/Props_Pipeline.v
theories/Props_Laws.v
theories/Props_Stat.v
theories/OdeBlock.v
theories/StressR.v
theories/PipelineBoth.v
theories/Props_Stress.v
theories/Props_Explicit.v
theories/DetR.v
theories/Det.v
theories/Props_Det.v
theories/HoldR.v
theories/Props_Hold.v
theories/Gmres.v
theories/GmresProofs.v
theories/GmresLimit.v
theories/Props_Gmres.v
theories/Implicit.v
theories/Props_Implicit.v
theories/Tolerance.v
theories/TolR.v
theories/Props_Tolerance.v
theories/Bayes.v
theories/BayesFacts.v
theories/Props_Bayes.v
theories/Converge.v
theories/Props_Converge.v
theories/Props_Inexact.v
theories/NewtonConv.v
theories/Props_NewtonConv.v
theories/SmallSteps.v
theories/Props_SmallSteps.v
theories/Props_Stagnate.v
theories/RandomTests.v
theories/Props_Random.v
theories/CycleStrict.v
theories/Props_CyclicTests.v
theories/FullModel.v
theories/FlatRun.v
theories/ElasticRange.v
theories/Props_FullModel.v
theories/FullTol.v
theories/Props_FullTol.v
theories/VCStep.v
theories/VCHistory.v
theories/VCExact.v
theories/Props_Unique.v
theories/SmoothR.v
theories/VCSmooth.v
theories/VCRegular.v
theories/SmoothMx.v
theories/VCGrad.v
theories/Props_Gradient.v
theories/VCShape.v
theories/VCClose.v
theories/Props_Close.v
theories/Props_Shape.v
theories/VCSym.v
theories/Props_Symmetry.v
theories/NewtonScalar.v
theories/PowerTangent.v
theories/NewtonGlobal.v
theories/Props_Global.v
theories/Props_Linear.v
theories/NewtonLocal.v
theories/OdeLocal.v
theories/StressLocal.v
theories/Props_Causal.v
theories/ChunkRel.v
theories/OdeSym.v
theories/StressSym.v
theories/Symmetry.v
theories/PipelineSym.v
theories/Props_Batch.v
theories/Props_Clock.v
theories/RateIndep.v
theories/Props_RateIndep.v
theories/VCStress.v
theories/MixedVC.v
theories/AdjointBlock.v
theories/MixedGrad.v
theories/Props_Mixed.v
theories/Props_Decompose.v
theories/AdjLimit.v
theories/Props_GradTol.v
theories/Units.v
theories/OdeScale.v
theories/Props_Units.v
theories/NeuralR.v
theories/NeuralRun.v
theories/Props_Neural.v
theories/Resume.v
theories/Props_Resume.v
theories/Lump.v
theories/Props_Nested.v
theories/CompareR.v
theories/Props_Compare.v
theories/Props_Descent.v
theories/ExplicitR.v
theories/Props_Stability.v
theories/Props_ExplicitTrain.v
theories/Props_ExplicitBounds.v
theories/ExplicitBoth.v
theories/Props_ExplicitStress.v
theories/Props_ExplicitError.v
theories/PVSmooth.v
theories/PVGrad.v
theories/GradHist.v
theories/Props_PerfectGrad.v
theories/Props_Training.v
theories/Props_PerfectTol.v
theories/Props_MixedTol.v
theories/StressClose.v
theories/MixedClose.v
theories/Props_MixedRuns.v
theories/Props_StressCal.v
theories/PVMixed.v
theories/Props_PerfectMixed.v
theories/Props_PerfectRuns.v
theories/SlowCreep.v
theories/Props_SlowCreep.v
theories/Props_EvalTol.v
theories/Props_CyclicTol.v
theories/Props_RelaxTol.v
