-Q theories Verif
theories/Outcome.v
theories/Arith.v
theories/TypesModel.v
theories/SpecOrigin.v
theories/CellModel.v
theories/SpecStats.v
theories/SumLemmas.v
theories/RTactics.v
theories/B64Tactics.v
theories/CellProofs.v
theories/CellProofs2.v
theories/PropCell.v
theories/ScanModel.v
theories/NdtModel.v
theories/MatcherModel.v
theories/SpecGrid.v
theories/NdtProofs.v
theories/NdtProofs2.v
theories/PropNdt.v
theories/SpecSearch.v
theories/MatcherProofs.v
theories/MatcherProofs2.v
theories/B64Lemmas.v
theories/MatcherB64.v
theories/MatcherB64b.v
theories/MatcherWitness.v
theories/PropMatcher.v
theories/SpecPose.v
theories/SpecScan.v
theories/ScanProofs.v
theories/PropScan.v
theories/ConstraintModel.v
theories/ConstraintProofs.v
theories/SpecDeviation.v
theories/PropConstraint.v
theories/SolverModel.v
theories/SpecSolver.v
theories/SolverProofs.v
theories/PropSolver.v
theories/GraphModel.v
theories/SpecGraph.v
theories/GraphProofs.v
theories/PropGraph.v
theories/OccGridModel.v
theories/SpecRay.v
theories/SpecOcc.v
theories/RayProofs.v
theories/OccProofs.v
theories/OccProofs2.v
theories/OccWitness.v
theories/PropOcc.v
theories/KdModel.v
theories/MotionModel.v
theories/FilterModel.v
theories/SpecFilter.v
theories/KdProofs.v
theories/AngleProofs.v
theories/MotionProofs.v
theories/FilterProofs.v
theories/FilterProofs2.v
theories/FilterWitness.v
theories/PropFilter.v
theories/LaserModel.v
theories/MapperModel.v
theories/SpecLaser.v
theories/LaserProofs.v
theories/LaserB64.v
theories/SpecMapper.v
theories/SpecMapper2.v
theories/SpecMapper3.v
theories/MapperProofs.v
theories/LaserWitness.v
theories/PropLaser.v
theories/MapperSteps.v
theories/MapperInv1.v
theories/MapperInv2.v
theories/MapperInv3.v
theories/MapperInv4.v
theories/MapperInv5.v
theories/MapperInv6.v
theories/MapperInv7.v
theories/MapperInv8.v
theories/MapperWitness.v
theories/MapperWitness2.v
theories/PropMapper.v
theories/PropMapper2.v
theories/SpecNode.v
theories/NodeProofs.v
theories/NodeProofs2.v
theories/NodeProofs3.v
theories/PropNode.v
theories/NodeLive.v
theories/NodeFair.v
theories/NodeQuiet.v
theories/PropNode2.v
theories/SpecMapper4.v
theories/MapperInv9.v
theories/MapperInv10.v
theories/MapperInv11.v
theories/PropMapper3.v
theories/LifeModel.v
theories/SpecLife.v
theories/LifeProofs.v
theories/PropLife.v
theories/SpecFreeze.v
theories/PropFreeze.v
theories/SpecSession.v
theories/PropSession.v
theories/SpecSafe.v
theories/SafeProofs.v
theories/SafeInv.v
theories/PropSafe.v
theories/ParamsModel.v
theories/SpecParams.v
theories/PropParams.v
theories/SpecCurrent.v
theories/PropCurrent.v
theories/PropSeam.v
theories/SpecPlace.v
theories/PropPlace.v
theories/SpecKld.v
theories/PropKld.v
theories/PropNoise.v
theories/TfModel.v
theories/PropTf.v
theories/PropDraws.v
theories/PropSingle.v
theories/SpecWeigh.v
theories/PropWeigh.v
theories/PropStuck.v
theories/PropResume.v
theories/SpecB64.v
theories/CellB64.v
theories/ScoreB64.v
theories/InfoB64.v
theories/PropCell64.v
theories/PropScore64.v
theories/ScanRaceModel.v
theories/SpecRace.v
theories/PropRace.v
theories/SpecBest.v
theories/PropBest.v
theories/SpecGrid64.v
theories/PropGrid64.v
theories/SpecAngle64.v
theories/PropAngle64.v
theories/SpecMotion64.v
theories/PropMotion64.v
theories/PropResidual64.v
theories/SpecWeights64.v
theories/PropWeights64.v
theories/PropMean64.v
theories/SpecPlace64.v
theories/NearB64.v
theories/NearestB64.v
theories/PropPlace64.v
theories/SpecRigid64.v
theories/PropRigid64.v
theories/PropTf64.v
theories/PropBary64.v
theories/SpecLaser64.v
theories/SingleB64.v
theories/PropLaser64.v
theories/SpecOcc64.v
theories/OccB64.v
theories/PropOcc64.v
theories/JetModel.v
theories/SpecJet.v
theories/PropJet.v
theories/SpecOptim.v
theories/OptimProofs.v
theories/OptimNode.v
theories/PropOptim.v
theories/SpecSample64.v
theories/PropSample64.v
theories/SpecCov64.v
theories/PropCov64.v
theories/SpecScore.v
theories/PropScore.v
theories/PropMatchCov64.v
theories/SpecDrawn.v
theories/PropDrawn.v
theories/PropKdValues.v
theories/SpecMapSafe64.v
theories/PropMapSafe64.v
theories/PropStart.v
theories/SpecResample64.v
theories/PropResample64.v
theories/SpecFree.v
theories/PropFree.v
theories/PropClose.v
theories/SpecTip.v
theories/PropTip.v
theories/PropDocs.v
theories/SpecSwitch.v
theories/PropSwitch.v
theories/PropSize.v
theories/SpecFilterSafe64.v
theories/PropFilterSafe64.v
theories/HalfAngle.v
theories/SpecOrdinary.v
theories/PropOrdinary.v
theories/SpecCanvas64.v
theories/PropCanvas64.v
theories/PropSweep.v
theories/PropSharper.v
theories/SpecClosure.v
theories/PropClosure.v
theories/PropMeasured.v
theories/SpecShift.v
theories/PropShift.v
theories/PropOrder.v
theories/SpecTurns.v
theories/PropTurns.v
theories/SpecFrame.v
theories/FrameSim.v
theories/PropFrame.v
theories/SpecPublish.v
theories/HushSim.v
theories/PropPublish.v
theories/SpecTiming.v
theories/TimingSim.v
theories/PropTiming.v
theories/SpecElsewhere.v
theories/PropElsewhere.v
theories/ScriptModel.v
theories/SpecScripts.v
theories/PropScripts.v
theories/SpecLocal.v
theories/PropLocal.v
theories/SpecUnused.v
theories/PropUnused.v
theories/SpecCrossed.v
theories/PropCrossed.v
theories/SpecAmong.v
theories/PropAmong.v
theories/SpecWindow.v
theories/PropWindow.v
theories/SpecEvidence.v
theories/PropEvidence.v
theories/PropEvidence64.v
theories/SpecEqualClouds.v
theories/PropEqualClouds.v
theories/SpecMapError.v
theories/PropMapError.v
theories/SpecReckoning.v
theories/PropReckoning.v
theories/PropExamples.v
theories/SpecRest.v
theories/RestProofs.v
theories/PropRest.v
theories/PropStay.v
theories/SpecExact.v
theories/ExactProofs.v
theories/PropExact.v
theories/SpecClosed.v
theories/ClosedProofs.v
theories/PropClosed.v
theories/PropNoise64.v
theories/DefaultsModel.v
theories/SpecDefaults.v
theories/DefaultsProofs.v
theories/PropDefaults.v
theories/SpecDrift.v
theories/DriftProofs.v
theories/DriftWitness.v
theories/PropDrift.v
theories/PropDefaults2.v
theories/SpecViewer.v
theories/ViewerProofs.v
theories/PropViewer.v
theories/SpecNan.v
theories/PropNan.v
theories/SpecNear64.v
theories/PropNear64.v
theories/PropNear64b.v
theories/PropNan2.v
theories/CloudModel.v
theories/PropCloud.v
theories/PropBag.v
theories/FileModel.v
theories/PropFileIO.v
theories/PropFileIO2.v
