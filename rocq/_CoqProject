-Q theories Verif
theories/Base/Num.v
theories/Base/Loop.v
theories/Base/Instances.v
theories/Base/Size.v
theories/Model/Sgd.v
theories/Spec/SgdSpec.v
theories/Proof/SgdProof.v
theories/Proof/SgdEx.v
theories/Proof/SgdMore.v
theories/Props/C01.v
theories/Props/C02.v
theories/Props/C03.v
theories/Props/C04.v
theories/Props/C05.v
theories/Props/C63.v
theories/Model/Callbacks.v
theories/Spec/CallbacksSpec.v
theories/Proof/CallbacksProof.v
theories/Props/C06.v
theories/Props/C07.v
theories/Props/C08.v
theories/Props/C09.v
theories/Model/GridSearch.v
theories/Model/FunctionMixin.v
theories/Spec/GridSpec.v
theories/Proof/GridProof.v
theories/Proof/FunctionProof.v
theories/Props/C10.v
theories/Props/C13.v
theories/Base/Vec.v
theories/Model/Common.v
theories/Model/GradientDescent.v
theories/Spec/CommonSpec.v
theories/Spec/GDSpec.v
theories/Proof/GDProof.v
theories/Props/C11.v
theories/Base/Argbest.v
theories/Model/CD.v
theories/Model/SPSA.v
theories/Spec/CDSpec.v
theories/Proof/CDProof.v
theories/Props/C12.v
theories/Spec/SPSASpec.v
theories/Proof/SPSAProof.v
theories/Props/C14.v
theories/Model/Updates.v
theories/Spec/UpdatesSpec.v
theories/Proof/UpdatesProof.v
theories/Proof/AdamProof.v
theories/Proof/AccumProof.v
theories/Proof/BoundProof.v
theories/Props/C30.v
theories/Props/C31.v
theories/Props/C32.v
theories/Props/C33.v
theories/Props/C62.v
theories/Model/Schedules.v
theories/Spec/SchedulesSpec.v
theories/Proof/SchedulesProof.v
theories/Proof/SnapshotProof.v
theories/Proof/ScheduleEx.v
theories/Props/C34.v
theories/Props/C35.v
theories/Props/C37.v
theories/Model/Swats.v
theories/Spec/SwatsSpec.v
theories/Proof/SwatsProof.v
theories/Props/C52.v
theories/Model/Eve.v
theories/Spec/EveSpec.v
theories/Proof/EveProof.v
theories/Props/C58.v
theories/Model/SA.v
theories/Spec/SASpec.v
theories/Proof/SAProof.v
theories/Props/C15.v
theories/Model/DE.v
theories/Spec/DESpec.v
theories/Proof/DEProof.v
theories/Props/C16.v
theories/Base/SortIdx.v
theories/Model/CNE.v
theories/Spec/CNESpec.v
theories/Proof/CNEProof.v
theories/Props/C17.v
theories/Model/PSO.v
theories/Spec/PSOSpec.v
theories/Proof/PSOProof.v
theories/Props/C18.v
theories/Model/CMAES.v
theories/Spec/CMAESSpec.v
theories/Proof/CMAESProof.v
theories/Props/C19.v
theories/Model/PopCMAES.v
theories/Spec/PopCMAESSpec.v
theories/Proof/PopCMAESProof.v
theories/Props/C21.v
theories/Model/BoxConstraint.v
theories/Proof/BoxProof.v
theories/Props/C20.v
theories/Base/QInst.v
theories/Model/LBFGS.v
theories/Spec/LBFGSSpec.v
theories/Proof/LBFGSProof.v
theories/Proof/BFGSProof.v
theories/Proof/LineSearchProof.v
theories/Proof/LBFGSRun.v
theories/Props/C22.v
theories/Props/C23.v
theories/Proof/WolfeProof.v
theories/Proof/LBFGSEx.v
theories/Props/C24.v
theories/Props/C25.v
theories/Spec/Gradient.v
theories/Model/AugLag.v
theories/Spec/AugLagSpec.v
theories/Proof/AugLagProof.v
theories/Proof/GradientProof.v
theories/Proof/AugLagValue.v
theories/Props/C26.v
theories/Proof/TraceLib.v
theories/Model/FrankWolfe.v
theories/Spec/FWSpec.v
theories/Proof/FWProof.v
theories/Proof/FWConvex.v
theories/Props/C27.v
theories/Model/LpBall.v
theories/Spec/LpSpec.v
theories/Proof/LpProof.v
theories/Proof/LpMore.v
theories/Proof/LpGroup.v
theories/Proof/LpEx.v
theories/Props/C28.v
theories/Model/Proximal.v
theories/Spec/ProximalSpec.v
theories/Proof/ProximalProof.v
theories/Proof/ProximalL0.v
theories/Proof/ProximalEx.v
theories/Props/C29.v
theories/Model/ParallelSgd.v
theories/Spec/ParSpec.v
theories/Proof/ParProof.v
theories/Proof/ParRun.v
theories/Proof/ParEx.v
theories/Props/C36.v
theories/Model/Pareto.v
theories/Spec/ParetoSpec.v
theories/Proof/ParetoProof.v
theories/Proof/ParetoMore.v
theories/Model/NSGA2.v
theories/Spec/NSGA2Spec.v
theories/Proof/NSGA2Proof.v
theories/Proof/NSGA2Ex.v
theories/Props/C38.v
theories/Props/C39.v
theories/Props/C40.v
theories/Model/DasDennis.v
theories/Spec/DasDennisSpec.v
theories/Proof/DasDennisProof.v
theories/Proof/DasDennisReal.v
theories/Props/C42.v
theories/Model/Indicators.v
theories/Spec/IndicatorsSpec.v
theories/Proof/IndicatorsProof.v
theories/Props/C43.v
theories/Model/Any.v
theories/Spec/AnySpec.v
theories/Proof/AnyProof.v
theories/Props/C44.v
theories/Model/Svec.v
theories/Spec/SvecSpec.v
theories/Proof/SvecProof.v
theories/Props/C45.v
theories/Model/LRSDP.v
theories/Spec/LRSDPSpec.v
theories/Proof/LRSDPProof.v
theories/Proof/LRSDPCalls.v
theories/Props/C46.v
theories/Model/PrimalDual.v
theories/Spec/PrimalDualSpec.v
theories/Proof/PrimalDualProof.v
theories/Proof/PrimalDualMain.v
theories/Proof/PrimalDualRun.v
theories/Proof/PrimalDualTrace.v
theories/Proof/PrimalDualEx.v
theories/Props/C47.v
theories/Model/MOEAD.v
theories/Spec/MOEADSpec.v
theories/Proof/MOEADProof.v
theories/Proof/MOEADRun.v
theories/Proof/MOEADEx.v
theories/Props/C41.v
theories/Model/Lookahead.v
theories/Spec/LookaheadSpec.v
theories/Proof/LookaheadProof.v
theories/Proof/LookaheadEx.v
theories/Props/C51.v
theories/Model/VarRed.v
theories/Model/SVRG.v
theories/Spec/VarRedSpec.v
theories/Spec/VarRedReal.v
theories/Proof/VarRedProof.v
theories/Proof/SVRGProof.v
theories/Proof/SVRGReal.v
theories/Props/C53.v
theories/Model/Sarah.v
theories/Model/Katyusha.v
theories/Spec/SarahSpec.v
theories/Proof/SarahProof.v
theories/Proof/KatyushaProof.v
theories/Proof/SarahReal.v
theories/Props/C54.v
theories/Model/BigBatch.v
theories/Spec/BigBatchSpec.v
theories/Proof/BigBatchProof.v
theories/Proof/BigBatchMore.v
theories/Props/C55.v
theories/Model/Spalera.v
theories/Spec/SpaleraSpec.v
theories/Proof/SpaleraProof.v
theories/Proof/SpaleraReal.v
theories/Props/C56.v
theories/Model/IQN.v
theories/Spec/IQNSpec.v
theories/Proof/IQNProof.v
theories/Proof/IQNReal.v
theories/Proof/IQNEx.v
theories/Props/C57.v
theories/Model/Problems.v
theories/Model/ProblemsN.v
theories/Model/ProblemsFinal.v
theories/Spec/ProblemsSpec.v
theories/Proof/ProblemsGrad.v
theories/Proof/ProblemsSum.v
theories/Proof/ProblemsNGrad.v
theories/Proof/LogisticProof.v
theories/Proof/ProblemsMin.v
theories/Props/C48.v
theories/Props/C49.v
theories/Props/C50.v
theories/Spec/NoLimitSpec.v
theories/Proof/NoLimit.v
theories/Proof/NoLimitMore.v
theories/Proof/NoLimitVar.v
theories/Proof/NoLimitRefuted.v
theories/Props/C60.v
theories/Spec/ReuseSpec.v
theories/Model/Reuse.v
theories/Proof/Reuse.v
theories/Proof/ReuseMore.v
theories/Proof/ReuseRefuted.v
theories/Props/C59.v
theories/Spec/BracketSpec.v
theories/Proof/Bracket.v
theories/Proof/BracketLoops.v
theories/Proof/BracketNested.v
theories/Props/C61.v
theories/Model/AGEMOEA.v
theories/Spec/AGEMOEASpec.v
theories/Proof/AGEMOEAProof.v
theories/Proof/AGEMOEARun.v
theories/Proof/AGEMOEAEx.v
theories/Props/C64.v
theories/Model/CMAESAdapt.v
theories/Spec/CMAESDistSpec.v
theories/Proof/CMAESWeights.v
theories/Proof/CMAESDist.v
theories/Proof/CMAESMain.v
theories/Proof/CMAESRun.v
theories/Props/C65.v
theories/Model/Atoms.v
theories/Spec/AtomsSpec.v
theories/Proof/AtomsProof.v
theories/Proof/AtomsFull.v
theories/Props/C66.v
theories/Model/Reporting.v
theories/Spec/ReportingSpec.v
theories/Proof/ReportingProof.v
theories/Proof/ReportingBar.v
theories/Props/C67.v
theories/Model/MultiProblems.v
theories/Spec/MultiSpec.v
theories/Proof/MultiProof.v
theories/Proof/MultiZdt.v
theories/Proof/MultiDtlz.v
theories/Proof/MultiMore.v
theories/Props/C68.v
theories/Spec/EveRunSpec.v
theories/Proof/EveStop.v
theories/Spec/HeardSpec.v
theories/Proof/HeardProof.v
theories/Spec/ConvergeSpec.v
theories/Proof/SmoothProof.v
theories/Proof/GDConverge.v
theories/Props/C69.v
theories/Proof/FWConverge.v
theories/Props/C70.v
theories/Model/SgdPolicies.v
theories/Spec/RegretSpec.v
theories/Proof/RegretProof.v
theories/Props/C71.v
theories/Proof/ReportingMax.v
theories/Spec/RankSpec.v
theories/Proof/RankProof.v
theories/Props/C72.v
theories/Spec/StepBoundSpec.v
theories/Proof/StepBoundProof.v
theories/Proof/StepBoundCounter.v
theories/Props/C73.v
theories/Model/DemonSchedule.v
theories/Proof/DemonProof.v
theories/Model/Softmax.v
theories/Spec/SoftmaxSpec.v
theories/Proof/SoftmaxProof.v
theories/Proof/SoftmaxModel.v
theories/Proof/SoftmaxCounter.v
theories/Props/C74.v
theories/Spec/SelectionSpec.v
theories/Proof/SelectionProof.v
theories/Proof/SelectionRun.v
theories/Proof/SelectionEx.v
theories/Proof/AGEMOEAScores.v
theories/Props/C75.v
theories/Model/Lovasz.v
theories/Spec/LovaszSpec.v
theories/Proof/LovaszProof.v
theories/Proof/TrayProof.v
theories/Props/C76.v
theories/Spec/InvarianceSpec.v
theories/Proof/InvarianceSgd.v
theories/Proof/InvariancePolicies.v
theories/Props/C77.v
theories/Spec/CoinSpec.v
theories/Proof/CoinProof.v
theories/Props/C78.v
theories/Spec/CDRateSpec.v
theories/Proof/CDRate.v
theories/Props/C79.v
theories/Spec/MotionSpec.v
theories/Proof/MotionSgd.v
theories/Proof/MotionRun.v
theories/Proof/MotionLinear.v
theories/Proof/MotionEx.v
theories/Props/C80.v
theories/Spec/FiniteSpec.v
theories/Proof/FiniteProof.v
theories/Proof/FiniteSgd.v
theories/Proof/FiniteVr.v
theories/Proof/FiniteMore.v
theories/Proof/FiniteEx.v
theories/Props/C81.v
theories/Spec/DriftSpec.v
theories/Proof/MomentumRegret.v
theories/Proof/AdamDrift.v
theories/Props/C82.v
theories/Spec/VrRateSpec.v
theories/Proof/NormProof.v
theories/Proof/VrRate.v
theories/Proof/VrPass.v
theories/Proof/VrRate2.v
theories/Proof/VrRateEx.v
theories/Props/C83.v
theories/Spec/SameSpec.v
theories/Proof/SameRun.v
theories/Proof/SameRun2.v
theories/Proof/SameSvrg.v
theories/Props/C84.v
theories/Model/Throw.v
theories/Spec/ThrowSpec.v
theories/Proof/ThrowProof.v
theories/Proof/ThrowProof2.v
theories/Proof/ThrowProof3.v
theories/Proof/ThrowReal.v
theories/Proof/ThrowDE.v
theories/Model/ThrowCNE.v
theories/Proof/ThrowCNE.v
theories/Props/C85.v
theories/Spec/SgdRateSpec.v
theories/Proof/SgdRate.v
theories/Proof/SgdFloor.v
theories/Proof/SgdFloorMore.v
theories/Proof/SgdFloorEx.v
theories/Props/C86.v
theories/Model/ReuseSwarm.v
theories/Proof/ReuseSwarm.v
theories/Spec/ParSerialSpec.v
theories/Proof/ParSerial.v
theories/Proof/ParSerialEx.v
theories/Props/C87.v
theories/Proof/ParSparse.v
theories/Proof/ParSparseEx.v
theories/Proof/ParFloor.v
theories/Proof/ParFloorRun.v
theories/Proof/ParFloorEx.v
theories/Props/C88.v
theories/Spec/BackoffSpec.v
theories/Proof/Backoff.v
theories/Proof/BackoffRun.v
theories/Proof/BackoffEx.v
theories/Props/C89.v
theories/Spec/DecaySpec.v
theories/Proof/Decay.v
theories/Proof/DecayEx.v
theories/Props/C90.v
theories/Model/SACooling.v
theories/Proof/SACooling.v
theories/Proof/SACoolingEx.v
theories/Props/C91.v
theories/Spec/WnSpec.v
theories/Proof/WnConverge.v
theories/Props/C92.v
theories/Spec/BigBatchRateSpec.v
theories/Proof/BigBatchRate.v
theories/Proof/BigBatchEnds.v
theories/Props/C93.v
theories/Spec/FWLineSpec.v
theories/Proof/FWLineSearch.v
theories/Proof/FWLineEx.v
theories/Props/C94.v
theories/Proof/LookaheadConvex.v
theories/Spec/AugOptSpec.v
theories/Proof/AugOpt.v
theories/Proof/AugConvex.v
theories/Props/C95.v
theories/Proof/AugRate.v
theories/Props/C96.v
