-Q theories Verif
theories/Num.v
theories/Outcome.v
theories/Vec.v
theories/Orthtree.v
theories/AdaptiveTree.v
theories/TreeSpec.v
theories/VecProofs.v
theories/GeometrySpec.v
theories/GeometryProofs.v
theories/TreeGeometry.v
theories/GeometryMore.v
theories/AdaptiveProofs.v
theories/BfsProofs.v
theories/ListProofs.v
theories/ListContents.v
theories/RootBoxProofs.v
theories/BuildProofs.v
theories/TreeTheorems.v
theories/TreeTheorems2.v
theories/TreeTheorems3.v
theories/PointTree.v
theories/PointProofs.v
theories/Termination.v
theories/PropertiesTree.v
theories/Tables.v
theories/Expansion2D.v
theories/CAux.v
theories/TableProofs.v
theories/Exp2Proofs.v
theories/M2LError.v
theories/Exp2Local.v
theories/Schedule.v
theories/Fields.v
theories/FieldSpec.v
theories/FieldProofs.v
theories/FieldSchedules.v
theories/FieldTheorems.v
theories/FieldMore.v
theories/Spherical.v
theories/SphericalProofs.v
theories/PropertiesFields.v
theories/Exp2Errors.v
theories/Exp2Forces.v
theories/Exp2ForceErrors.v
theories/Exp2Theorems.v
theories/PropertiesExpansion2D.v
theories/FmmPasses.v
theories/PassProofs.v
theories/PassSteps.v
theories/PassTree.v
theories/PassSpec.v
theories/ListCounts.v
theories/PassAgree.v
theories/PassEval.v
theories/FmmTree2D.v
theories/FmmTree2DProofs.v
theories/FmmForce2DProofs.v
theories/FmmTheorems.v
theories/FmmApi.v
theories/FmmApiProofs.v
theories/EpsNumbers.v
theories/EpsRefuted.v
theories/PropertiesFmm.v
theories/BalancedTree.v
theories/BalancedSpec.v
theories/BalancedIndex.v
theories/BalancedAddr.v
theories/BalancedProofs.v
theories/BalancedFmm.v
theories/BalancedFmmProofs.v
theories/BalancedApiProofs.v
theories/BalancedTheorems.v
theories/PropertiesBalanced.v
theories/Tables3D.v
theories/Expansion3D.v
theories/Table3DProofs.v
theories/SolidHarmonics.v
theories/Zonal.v
theories/HarmonicBounds.v
theories/NewtonSeries.v
theories/Kernel3.v
theories/KernelBounds3.v
theories/Harmonics3D.v
theories/Exp3Loops.v
theories/Exp3Proofs.v
theories/Exp3Errors.v
theories/Gradient3.v
theories/Exp3Forces.v
theories/KernelGradient3.v
theories/KernelGradBounds3.v
theories/Exp3ForceErrors.v
theories/Exp3Theorems.v
theories/Exp3Cases.v
theories/PropertiesExpansion3D.v
theories/FmmTree3D.v
theories/FmmTree3DProofs.v
theories/FmmForce3DProofs.v
theories/Fmm3ApiProofs.v
theories/Fmm3Theorems.v
theories/Fmm3ForceProofs.v
theories/Force3Theorems.v
theories/PropertiesFmm3D.v
theories/RaceSpec.v
theories/RaceProofs.v
theories/RaceTheorems.v
theories/PropertiesRaces.v
theories/PropertiesForce3D.v
theories/Interfaces.v
theories/InterfaceProofs.v
theories/InterfaceTheorems.v
theories/IntegratorProofs.v
theories/FileProofs.v
theories/LibraryTheorems.v
theories/CasesExpansions.v
theories/CasesFmm.v
theories/PropertiesInterfaces.v
theories/Output.v
theories/Lifetime.v
theories/LifetimeProofs.v
theories/OutputSpec.v
theories/OutputProofs.v
theories/ObjectTheorems.v
theories/CasesTrees.v
theories/PropertiesObjects.v
theories/AnyTree.v
theories/AnyLists.v
theories/AnyTheorems.v
theories/FloatProofs.v
theories/FloatCases.v
theories/FloatTheorems.v
theories/FloatDepth.v
theories/PropertiesFloat.v
theories/RoundedFields.v
theories/RoundedSpec.v
theories/RoundedProofs.v
theories/RoundedCases.v
theories/RoundedPairs.v
theories/RoundedPairProofs.v
theories/RoundedPairCases.v
theories/PropertiesRounding.v
theories/AnyBalanced.v
theories/RoundedTree.v
theories/RoundedTreeSpec.v
theories/RoundedTreeProofs.v
theories/RoundedTreeTheorems.v
theories/RoundedAdaptive.v
theories/RoundedTreeCases.v
theories/FloatPotential.v
theories/FloatLookup.v
theories/PropertiesRoundedTree.v
theories/AnyPasses.v
theories/RoundedExpansion2D.v
theories/RoundedComplexSpec.v
theories/ApproxC.v
theories/RoundedSeries.v
theories/RoundedLocal.v
theories/RoundedConvert.v
theories/RoundedGood.v
theories/RoundedForce.v
theories/RoundedPasses.v
theories/RoundedFmmEval.v
theories/RoundedGeometry.v
theories/RoundedFmmSpec.v
theories/RoundedFmmTheorems.v
theories/TextbookComplex.v
theories/TextbookProofs.v
theories/RoundedFmmCases.v
theories/PropertiesRoundedFmm.v
theories/PropertiesRoundedForce.v
theories/RoundedBalancedFmm.v
theories/RoundedBalancedTree.v
theories/BalancedCounts.v
theories/RoundedBalancedSpec.v
theories/RoundedBalancedProofs.v
theories/RoundedBalancedTheorems.v
theories/RoundedBalancedCases.v
theories/PropertiesRoundedBalanced.v
theories/AccuracyRule.v
theories/Integrator.v
theories/TrajectoryProofs.v
theories/ListSizes.v
theories/PropertiesCost.v
theories/PropertiesUse.v
theories/RoundedApi.v
theories/RoundedHeight.v
theories/RoundedApiProofs.v
theories/Ln2.v
theories/RoundedHeightCases.v
theories/PropertiesRoundedApi.v
theories/FloatFit.v
theories/FloatGeometry.v
theories/FloatSpec.v
theories/FloatBridge.v
theories/FloatBridgeTrees.v
theories/FloatNorm.v
theories/DoubleTheorems.v
theories/PropertiesDoubles.v
theories/Minimal.v
theories/MinimalProofs.v
theories/Text.v
theories/TextProofs.v
theories/PropertiesExamples.v
theories/FloatFields.v
theories/FloatFieldsSpec.v
theories/FloatFieldsProofs.v
theories/FloatFieldsTheorems.v
theories/FloatFieldsExtremes.v
theories/PropertiesDoubleFields.v
theories/HarmonicNorms.v
theories/RoundedExpansion3D.v
theories/ShiftGroup.v
theories/CoefNorms.v
theories/CoefBounds.v
theories/RoundedHarmonicSpec.v
theories/RoundedHarmonics.v
theories/RoundedLoops3.v
theories/RoundedErrors3.v
theories/RoundedGood3.v
theories/RoundedPasses3.v
theories/RoundedGeometry3.v
theories/RoundedFmmEval3.v
theories/RoundedFmmSpec3.v
theories/RoundedApi3.v
theories/RoundedFmmTheorems3.v
theories/RoundedFmmCases3.v
theories/RoundedChain3.v
theories/ShiftTheorems3.v
theories/PropertiesRoundedFmm3D.v
theories/RoundedHarmonicTable.v
theories/RoundedTableSpec.v
theories/RoundedTable.v
theories/RoundedTableCases.v
theories/PropertiesRoundedHarmonics.v
theories/RoundedBalancedTree3.v
theories/RoundedBalancedProofs3.v
theories/RoundedBalancedApi3.v
theories/RoundedBalancedSpec3.v
theories/RoundedBalancedTheorems3.v
theories/RoundedBalancedCases3.v
theories/PropertiesRoundedBalanced3D.v
theories/GradientBounds3.v
theories/RoundedForce3D.v
theories/RoundedForceCases3.v
theories/RoundedForceSpec3.v
theories/RoundedForceTable3.v
theories/RoundedForceProofs3.v
theories/RoundedForceTheorems3.v
theories/RoundedForceFinal3.v
theories/PropertiesRoundedForce3D.v
theories/RoundedForceApi3.v
theories/RoundedForceTree3.v
theories/FloatPairs.v
theories/FloatPairsProofs.v
theories/PropertiesDoublePairs.v
theories/FloatExpansion2D.v
theories/FloatExpansionSpec.v
theories/FloatOverflow.v
theories/FloatExpansionProofs.v
theories/FloatExpansionCases.v
theories/PropertiesDoubleExpansions.v
theories/FloatCounts.v
theories/FloatCountsSpec.v
theories/FloatCountsProofs.v
theories/PropertiesDoubleCounts.v
theories/FloatRangeSpec.v
theories/FloatRange.v
theories/FloatRangeCases.v
theories/PropertiesDoubleRange.v
theories/FloatCoefficientSpec.v
theories/FloatCoefficients.v
theories/FloatMultipole.v
theories/FloatAccuracy.v
theories/FloatAccuracyCases.v
theories/PropertiesDoubleAccuracy.v
theories/FloatForceSpec.v
theories/FloatForceAccuracy.v
theories/FloatForceError.v
theories/FloatForceCases.v
theories/PropertiesDoubleForce.v
