-Q theories Verif
theories/Base.v
theories/Targets.v
theories/Matrix.v
theories/Sparse.v
theories/Sle.v
theories/State.v
theories/Ode.v
theories/Forces.v
theories/Constraints.v
theories/System.v
theories/Logic.v
theories/MatrixFacts.v
theories/MatrixOps.v
theories/SpecMatrix.v
theories/MatrixHist.v
theories/MatrixWit.v
theories/PropMatrix.v
theories/SparseFacts.v
theories/RealSum.v
theories/SpecSparse.v
theories/SparseHist.v
theories/SparseWit.v
theories/SpecStab.v
theories/StabFacts.v
theories/PropSparse.v
theories/SpecSle.v
theories/SleHist.v
theories/SleGe.v
theories/GeReal.v
theories/GeHist.v
theories/SleGs.v
theories/GsReal.v
theories/GsHist.v
theories/SleCg.v
theories/CgReal.v
theories/CgHist.v
theories/SleWit.v
theories/PropSle.v
theories/SpecState.v
theories/StateFacts.v
theories/StateReal.v
theories/StateWit.v
theories/PropState.v
theories/SpecOde.v
theories/OdeFacts.v
theories/OdeReal.v
theories/OdeWit.v
theories/PropOde.v
theories/SpecForces.v
theories/ForceFacts.v
theories/ForceReal.v
theories/ForceFloat.v
theories/ForceWit.v
theories/PropForces.v
theories/SpecCon.v
theories/ConFacts.v
theories/ConReal.v
theories/ConWit.v
theories/PropCon.v
theories/SpecSys.v
theories/SysFrame.v
theories/SysInv.v
theories/SysColumn.v
theories/RegFacts.v
theories/RegWit.v
theories/PropReg.v
theories/SpecDyn.v
theories/DynState.v
theories/DynReact.v
theories/DynRound.v
theories/DynStep.v
theories/DynForce.v
theories/DynGather.v
theories/DynRight.v
theories/DynReady.v
theories/DynSolver.v
theories/SpecSolve.v
theories/SolveReal.v
theories/SolveStep.v
theories/SpecLimits.v
theories/DynLimits.v
theories/GsStep.v
theories/DynWit.v
theories/PropDyn.v
theories/SpecLaw.v
theories/LawReal.v
theories/LawStep.v
theories/LimitStep.v
theories/Assemble.v
theories/SolveWit.v
theories/PropSolve.v
theories/LimitWit.v
theories/PropLimits.v
theories/Destroy.v
theories/SpecEdge.v
theories/EdgeNone.v
theories/EdgeHalt.v
theories/EdgeOut.v
theories/EdgeDtor.v
theories/EdgeWit.v
theories/PropEdge.v
theories/SpecSub.v
theories/SubSim.v
theories/SubOde.v
theories/SubPop.v
theories/SubStep.v
theories/SubRun.v
theories/SubFloat.v
theories/SubWit.v
theories/PropSub.v
theories/SpecMom.v
theories/MomForce.v
theories/MomStep.v
theories/MomSpin.v
theories/MomWit.v
theories/MomEnd.v
theories/PropMom.v
theories/SpecRk.v
theories/RkStep.v
theories/RkOwn.v
theories/SpecRkR.v
theories/RkReal.v
theories/RkWit.v
theories/PropRk.v
theories/SpecLeast.v
theories/LeastReal.v
theories/LeastStep.v
theories/LeastPart.v
theories/LeastGal.v
theories/LeastWit.v
theories/LeastEnd.v
theories/PropLeast.v
theories/SpecTurn.v
theories/TurnReal.v
theories/TurnStep.v
theories/TurnWit.v
theories/TurnRoll.v
theories/PropTurn.v
theories/SpecUnit.v
theories/UnitReal.v
theories/UnitStep.v
theories/UnitWit.v
theories/PropUnit.v
theories/SpecShare.v
theories/ShareSolve.v
theories/ShareLow.v
theories/ShareSle.v
theories/ShareSys.v
theories/ShareRun.v
theories/ShareOde.v
theories/ShareWit.v
theories/PropShare.v
theories/SpecDrift.v
theories/DriftReal.v
theories/DriftWit.v
theories/DriftEnd.v
theories/PropDrift.v
theories/SpecSafe.v
theories/SafeCalc.v
theories/SafeForce.v
theories/SafeStage.v
theories/SafeStep.v
theories/SafeWit.v
theories/PropSafe.v
theories/SpecStatic.v
theories/StaticReal.v
theories/StaticWit.v
theories/PropStatic.v
theories/SpecIdle.v
theories/IdleStep.v
theories/IdleTime.v
theories/IdleWit.v
theories/PropIdle.v
theories/SpecSlip.v
theories/SlipStep.v
theories/SlipRun.v
theories/SlipWit.v
theories/PropSlip.v
theories/SpecFlight.v
theories/FlightReal.v
theories/FlightWit.v
theories/PropFlight.v
theories/SpecSwing.v
theories/SwingReal.v
theories/SwingStep.v
theories/SwingEnd.v
theories/SwingWit.v
theories/PropSwing.v
theories/SpecMotor.v
theories/MotorReal.v
theories/SpecRun.v
theories/RunTotal.v
theories/RunReal.v
theories/RunStep.v
theories/RunGap.v
theories/RunGaps.v
theories/MotorWit.v
theories/MotorEnd.v
theories/RunWit.v
theories/PropMotor.v
theories/PropRun.v
theories/Alloc.v
theories/SpecAlloc.v
theories/AllocFacts.v
theories/AllocHist.v
theories/AllocClass.v
theories/AllocSame.v
theories/AllocCopy.v
theories/AllocTidy.v
theories/AllocWit.v
theories/PropAlloc.v
theories/SpecDamp.v
theories/DampReal.v
theories/DampRun.v
theories/DampWit.v
theories/PropDamp.v
theories/Ints.v
theories/IntSys.v
theories/SpecInts.v
theories/IntsFacts.v
theories/IntsMore.v
theories/IntsWit.v
theories/PropInts.v
theories/SpecSpring.v
theories/SpringReal.v
theories/SpringStep.v
theories/SpringRun.v
theories/SpringWit.v
theories/PropSpring.v
theories/Suite.v
theories/SpecSuite.v
theories/SuiteReal.v
theories/SuiteRun.v
theories/SuiteOde.v
theories/SuiteWit.v
theories/PropSuite.v
theories/SpecKrylov.v
theories/CgBest.v
theories/CgBestWit.v
theories/PropKrylov.v
theories/GeGrow.v
theories/GeGrowWit.v
theories/PropGrow.v
theories/SpecInert.v
theories/InertStep.v
theories/InertWit.v
theories/PropInert.v
theories/SpecFall.v
theories/FallReal.v
theories/FallWit.v
theories/PropFall.v
theories/SpecNear.v
theories/GsNear.v
theories/NearWit.v
theories/PropNear.v
theories/NearStep.v
theories/NearEnough.v
theories/NearEnoughWit.v
theories/PropNearStep.v
theories/SpecFour.v
theories/FourReal.v
theories/SpecSpin.v
theories/SpinReal.v
theories/SpinEnd.v
theories/FourWit.v
theories/SpinWit.v
theories/PropFour.v
theories/PropSpin.v
theories/SpecBow.v
theories/BowReal.v
theories/BowRun.v
theories/BowWit.v
theories/PropBow.v
theories/SpecOsc.v
theories/OscReal.v
theories/OscRun.v
theories/OscWit.v
theories/PropOsc.v
theories/SpecFade.v
theories/FadeReal.v
theories/FadeRun.v
theories/FadeWit.v
theories/PropFade.v
theories/SpecLag.v
theories/LagRun.v
theories/PropLag.v
