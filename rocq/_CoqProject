-Q theories Verif
theories/Lin.v
theories/SO3.v
theories/SE3.v
theories/LinFacts.v
theories/SpecGeom.v
theories/SO3Ops.v
theories/SO3Exp.v
theories/TrigBounds.v
theories/SO3ExpTrue.v
theories/SO3Ln.v
theories/SO3Misc.v
theories/SO3Near.v
theories/SO3Dist.v
theories/SO3Tri.v
theories/PropSO3.v
theories/SE3Ops.v
theories/SE3Alg.v
theories/SE3Exp.v
theories/SE3Ln.v
theories/SE3NearPi.v
theories/PropSE3.v
theories/SE3Cov.v
theories/SE3CovProofs.v
theories/SE3Cov4.v
theories/PropSE3Cov.v
theories/Angle.v
theories/AngleProofs.v
theories/Angle64.v
theories/PropAngle.v
theories/Nodes.v
theories/NodesProofs.v
theories/Robust.v
theories/RobustProofs.v
theories/PropNodes.v
theories/Graph.v
theories/GraphProofs.v
theories/PropGraph.v
theories/Sums.v
theories/Solve.v
theories/SpecSolve.v
theories/SolveIndex.v
theories/SolveFrame.v
theories/SolveSums.v
theories/SolveBuild.v
theories/SolveProofs.v
theories/Session.v
theories/SessionProofs.v
theories/PropSolve.v
theories/Factors.v
theories/SpecFactors.v
theories/FactorsDer.v
theories/FactorsPlanar.v
theories/Factors3D.v
theories/Factors3DLn.v
theories/FactorsMore.v
theories/FactorsSession.v
theories/PropFactors.v
theories/Optimizer.v
theories/OptimizerProofs.v
theories/Dense.v
theories/SpecDense.v
theories/DenseProofs.v
theories/PropDense.v
theories/PropOptimizer.v
theories/Registration.v
theories/SpecRegistration.v
theories/ArunProofs.v
theories/RegistrationProofs.v
theories/SE3Tangent.v
theories/RegistrationMore.v
theories/Spectral.v
theories/PropRegistration.v
theories/Planes.v
theories/SpecPlanes.v
theories/PlanesProofs.v
theories/PlanesEigen.v
theories/PlanesMore.v
theories/PlanesHess.v
theories/PropPlanes.v
theories/SpecPlaneReg.v
theories/PlaneRegProofs.v
theories/PlaneRegMore.v
theories/PlaneRegSolve.v
theories/PlaneRegInit.v
theories/PlaneRegBox.v
theories/PlaneRegMis.v
theories/PlaneRegGrad.v
theories/PlaneRegGrad3.v
theories/PlaneRegHess.v
theories/PropPlaneReg.v
theories/PropPlaneGrad.v
theories/PropPoseError.v
theories/CreatePoints.v
theories/CreatePointsFloat.v
theories/CreatePointsProofs.v
theories/CreatePointsReg.v
theories/PropCreatePoints.v
theories/SharedPlanes.v
theories/SharedPlanesProofs.v
theories/SharedPlanesMore.v
theories/SharedPlanesWitness.v
theories/SharedPlanesSolve.v
theories/PropSharedPlanes.v
theories/Profiling.v
theories/PropProfiling.v
theories/PropReadback.v
theories/PropTwoSolvers.v
theories/Evaluate.v
theories/EvaluateProofs.v
theories/PropEvaluate.v
theories/SpecFrame.v
theories/FrameFactors.v
theories/Gauss.v
theories/FrameSolve.v
theories/FrameSession.v
theories/PropFrame.v
theories/SpecSolvable.v
theories/SolvableFactors.v
theories/SolvableSession.v
theories/FloatSession.v
theories/PropSolvable.v
theories/SpecMapping.v
theories/MappingSession.v
theories/PropMapping.v
theories/SpecFrame3.v
theories/Frame3Factors.v
theories/Frame3Session.v
theories/Frame3Map.v
theories/PropFrame3.v
theories/SpecLMMapping.v
theories/LMMapping.v
theories/PropLMMapping.v
theories/SpecReorder.v
theories/Reorder.v
theories/ReorderSolve.v
theories/PropReorder.v
theories/SpecFixed.v
theories/Fixed.v
theories/PropFixed.v
theories/SpecTree.v
theories/Tree.v
theories/PropTree.v
theories/SpecParts.v
theories/Parts.v
theories/PropParts.v
theories/SpecInfos.v
theories/Infos.v
theories/PropInfos.v
theories/SpecRobustCost.v
theories/RobustCost.v
theories/PropRobustCost.v
theories/SpecLMStops.v
theories/LMStops.v
theories/PropLMStops.v
theories/SpecLocate.v
theories/Locate.v
theories/PropLocate.v
theories/SpecRightMap.v
theories/RightMap.v
theories/PropRightMap.v
theories/SpecDescent.v
theories/Descent.v
theories/PropDescent.v
theories/SpecPlaneFrame.v
theories/PlaneFrame.v
theories/PropPlaneFrame.v
theories/SpecChain.v
theories/Chain.v
theories/PropChain.v
theories/SpecGrow.v
theories/Grow.v
theories/PropGrow.v
theories/SpecBranch.v
theories/Branch.v
theories/PropBranch.v
theories/SpecDof.v
theories/Dof.v
theories/PropDof.v
theories/SpecPin.v
theories/Pin.v
theories/PropPin.v
theories/SpecKalman.v
theories/Kalman.v
theories/PropKalman.v
theories/Alike.v
theories/PropAlike.v
theories/Turned.v
theories/PropTurned.v
theories/PropWorth.v
theories/PropSides.v
theories/Scaled.v
theories/PropRepeat.v
