-Q theories Verif
theories/Lib/RSum.v
theories/Spec/Calculus.v
theories/Lib/Calc.v
theories/Lib/LinAlg.v
theories/Lib/Py.v
theories/Spec/Slider.v
theories/Spec/LocalResults.v
theories/Model/Jenkins.v
theories/Model/VectorJenkins.v
theories/Model/JenkinsOps.v
theories/Spec/JenkinsCalls.v
theories/Spec/EldryCalls.v
theories/Proofs/SliderP.v
theories/Proofs/JenkinsP.v
theories/Proofs/JenkinsOpsP.v
theories/Proofs/VectorJenkinsP.v
theories/Proofs/JenkinsDerivP.v
theories/Proofs/HysteresisP.v
theories/Props/HysteresisProps.v
theories/Spec/Harmonic.v
theories/Model/Harmonic.v
theories/Proofs/HarmonicP.v
theories/Proofs/FourierP.v
theories/Proofs/HarmonicOpsP.v
theories/Props/HarmonicProps.v
theories/Spec/Elements.v
theories/Model/LocalForces.v
theories/Model/Aft.v
theories/Proofs/AftP.v
theories/Proofs/HystAftP.v
theories/Proofs/ElementsP.v
theories/Props/InstantProps.v
theories/Model/VibSys.v
theories/Model/FrfTable.v
theories/Model/SysElements.v
theories/Model/TimeStability.v
theories/Model/Solver.v
theories/Model/Continuation.v
theories/Spec/System.v
theories/Spec/Rom.v
theories/Proofs/VibSysP.v
theories/Proofs/VibControlP.v
theories/Proofs/EpmcP.v
theories/Proofs/VprnmP.v
theories/Proofs/BaseP.v
theories/Proofs/FrfP.v
theories/Proofs/FrfTableP.v
theories/Proofs/ShootP.v
theories/Spec/Continuation.v
theories/Proofs/ContP.v
theories/Proofs/ContLoopP.v
theories/Proofs/ContRunP.v
theories/Proofs/ContEndP.v
theories/Proofs/ContCasesP.v
theories/Proofs/ContScaleP.v
theories/Props/ContinuationProps.v
theories/Model/Postprocess.v
theories/Model/EpmcRom.v
theories/Spec/Postprocess.v
theories/Proofs/PostP.v
theories/Props/PostprocessProps.v
theories/Model/JaxSolver.v
theories/Spec/Solver.v
theories/Proofs/JaxP.v
theories/Proofs/JaxLineP.v
theories/Proofs/JaxRunP.v
theories/Proofs/JaxCasesP.v
theories/Props/JaxSolverProps.v
theories/Proofs/HystAftGenP.v
theories/Model/Iwan.v
theories/Proofs/IwanP.v
theories/Proofs/VectorIwanP.v
theories/Model/IwanOps.v
theories/Spec/IwanCalls.v
theories/Proofs/IwanOpsP.v
theories/Proofs/IwanAftP.v
theories/Proofs/IwanDiscP.v
theories/Proofs/IwanCasesP.v
theories/Model/SysFriction.v
theories/Proofs/SysFrictionP.v
theories/Props/IwanProps.v
theories/Props/JaxFrictionProps.v
theories/Props/JaxVectorProps.v
theories/Props/LocalForcesProps.v
theories/Proofs/EpmcRomP.v
theories/Props/RomProps.v
theories/Props/RoughProps.v
theories/Model/JaxDual.v
theories/Spec/Rough.v
theories/Model/JaxFloat.v
theories/Model/RoughContact.v
theories/Spec/RoughCalls.v
theories/Spec/RoughTangent.v
theories/Model/JaxFriction.v
theories/Model/JaxVectorJenkins.v
theories/Model/PostHarmonic.v
theories/Spec/Predict.v
theories/Model/Predict.v
theories/Proofs/JaxDualP.v
theories/Proofs/JaxFloatP.v
theories/Proofs/RoughNormalP.v
theories/Proofs/RoughStaticP.v
theories/Proofs/RoughCallsP.v
theories/Proofs/RoughHistoryP.v
theories/Proofs/RoughSteadyP.v
theories/Proofs/RoughCasesP.v
theories/Proofs/RoughAftP.v
theories/Proofs/JaxFrictionP.v
theories/Proofs/EldryP.v
theories/Proofs/EldryStaticP.v
theories/Proofs/EldryCasesP.v
theories/Proofs/CycleP.v
theories/Proofs/TrigZerosP.v
theories/Proofs/JaxVectorP.v
theories/Proofs/JaxVectorAftP.v
theories/Proofs/PostHarmonicP.v
theories/Proofs/SysElementsP.v
theories/Props/SystemProps.v
theories/Props/FrfTableProps.v
theories/Proofs/PredictP.v
theories/Props/PredictProps.v
theories/Spec/VprnmRom.v
theories/Model/VprnmRom.v
theories/Proofs/VprnmBlocksP.v
theories/Proofs/VprnmRomP.v
theories/Proofs/VprnmRomCaseP.v
theories/Props/VprnmRomProps.v
theories/Spec/StaticHistory.v
theories/Model/SysHistory.v
theories/Model/SysHarmonic.v
theories/Spec/SystemCalls.v
theories/Spec/SysVibration.v
theories/Proofs/SysHistoryP.v
theories/Proofs/SysWorkflowP.v
theories/Proofs/SysHistoryCaseP.v
theories/Props/SysHistoryProps.v
theories/Proofs/SysHarmonicP.v
theories/Proofs/SysVibrationP.v
theories/Proofs/SysVibCaseP.v
theories/Props/SysHarmonicProps.v
theories/Spec/Galerkin.v
theories/Proofs/TrigPolyP.v
theories/Proofs/GalerkinP.v
theories/Props/GalerkinProps.v
theories/Proofs/SliderShiftP.v
theories/Spec/Rotation.v
theories/Proofs/RotationP.v
theories/Proofs/RotationCaseP.v
theories/Props/RotationProps.v
theories/Spec/Symmetry.v
theories/Proofs/SymmetryP.v
theories/Proofs/SymmetryCaseP.v
theories/Props/SymmetryProps.v
theories/Spec/Subharmonic.v
theories/Proofs/SubharmonicP.v
theories/Proofs/SubharmonicCaseP.v
theories/Props/SubharmonicProps.v
theories/Spec/Energy.v
theories/Proofs/EnergyP.v
theories/Proofs/FrictionWorkP.v
theories/Proofs/EnergyCaseP.v
theories/Props/EnergyProps.v
theories/Spec/Coordinates.v
theories/Proofs/CoordinatesP.v
theories/Proofs/CoordinatesCaseP.v
theories/Props/CoordinateProps.v
theories/Spec/LinearModes.v
theories/Proofs/LinearModesP.v
theories/Props/LinearModeProps.v
theories/Model/SummaryFiles.v
theories/Spec/Summary.v
theories/Proofs/SummaryP.v
theories/Props/SummaryProps.v
theories/Spec/Units.v
theories/Proofs/UnitsFloatP.v
theories/Proofs/UnitsRoughP.v
theories/Proofs/UnitsP.v
theories/Proofs/UnitsElementP.v
theories/Proofs/UnitsStateP.v
theories/Proofs/UnitsJaxP.v
theories/Proofs/UnitsSystemP.v
theories/Proofs/UnitsCaseP.v
theories/Props/UnitProps.v
theories/Spec/Periodic.v
theories/Proofs/GronwallP.v
theories/Proofs/PeriodicP.v
theories/Proofs/ShootMotionP.v
theories/Proofs/LipschitzP.v
theories/Proofs/PeriodicCaseP.v
theories/Props/PeriodicProps.v
theories/Spec/RoughMif.v
theories/Proofs/RoughInterpP.v
theories/Proofs/RoughMifP.v
theories/Proofs/RoughSlipP.v
theories/Proofs/RoughMifCaseP.v
theories/Props/RoughMifProps.v
theories/Spec/StaticStates.v
theories/Proofs/StaticStatesP.v
theories/Proofs/StaticLawsP.v
theories/Proofs/StaticCasesP.v
theories/Props/StaticStatesProps.v
theories/Proofs/ElementCasesP.v
theories/Proofs/SystemCasesP.v
theories/Proofs/TracksP.v
theories/Proofs/RoughTangentP.v
theories/Proofs/RoughJacobianP.v
theories/Proofs/RoughJacobianCaseP.v
theories/Proofs/RoughCycleTangentP.v
theories/Proofs/RoughAftJacobianP.v
theories/Props/RoughTangentProps.v
theories/Spec/Order.v
theories/Proofs/OrderP.v
theories/Props/OrderProps.v
theories/Spec/Truncation.v
theories/Proofs/TruncationP.v
theories/Proofs/TruncationCaseP.v
theories/Props/TruncationProps.v
theories/Spec/Potential.v
theories/Proofs/PotentialP.v
theories/Proofs/PotentialHbmP.v
theories/Proofs/PotentialCaseP.v
theories/Props/PotentialProps.v
theories/Proofs/SymmetricJacobianP.v
theories/Proofs/SymmetricCaseP.v
theories/Props/SymmetricProps.v
theories/Spec/Reversal.v
theories/Proofs/ReversalP.v
theories/Proofs/ReversalCaseP.v
theories/Props/ReversalProps.v
theories/Proofs/ModeDampingP.v
theories/Props/ModeDampingProps.v
theories/Spec/Trajectory.v
theories/Proofs/TrajectoryP.v
theories/Props/TrajectoryProps.v
theories/Spec/Convex.v
theories/Proofs/ConvexP.v
theories/Props/ConvexProps.v
theories/Proofs/StabilityP.v
theories/Props/StabilityProps.v
