-Q theories Verif
theories/Instances.v
theories/ModelAccess.v
theories/ModelAlloc.v
theories/ModelAnalyzers.v
theories/ModelArith.v
theories/ModelBorrows.v
theories/ModelClone.v
theories/ModelCollect.v
theories/ModelCost.v
theories/ModelDebug.v
theories/ModelDerive.v
theories/ModelDisjoint.v
theories/ModelEmit.v
theories/ModelForward.v
theories/ModelHasher.v
theories/ModelHistory.v
theories/ModelHostile.v
theories/ModelHostileEq.v
theories/ModelHostileIter.v
theories/ModelIter.v
theories/ModelLen.v
theories/ModelLookups.v
theories/ModelMacros.v
theories/ModelMagnitude.v
theories/ModelMaps.v
theories/ModelParsing.v
theories/ModelPretty.v
theories/ModelProcMacro.v
theories/ModelRun.v
theories/ModelScalar.v
theories/ModelScan.v
theories/ModelSerde.v
theories/ModelSetHistory.v
theories/ModelTables.v
theories/ModelTokens.v
theories/ModelTypes.v
theories/ModelUtils.v
theories/ModelWidth.v
theories/ModelWork.v
theories/Prelude.v
theories/ProofsAccess.v
theories/ProofsAliasing.v
theories/ProofsAlloc.v
theories/ProofsAnalyzer.v
theories/ProofsArith.v
theories/ProofsAsked.v
theories/ProofsBase.v
theories/ProofsBorrows.v
theories/ProofsBuildCalls.v
theories/ProofsCalls.v
theories/ProofsClientPhases.v
theories/ProofsClone.v
theories/ProofsCollect.v
theories/ProofsCost.v
theories/ProofsCovers.v
theories/ProofsCross.v
theories/ProofsDebug.v
theories/ProofsDedup.v
theories/ProofsDerive.v
theories/ProofsDisjoint.v
theories/ProofsEmit.v
theories/ProofsEmitProps.v
theories/ProofsEytzinger.v
theories/ProofsForm.v
theories/ProofsForward.v
theories/ProofsFz.v
theories/ProofsHasher.v
theories/ProofsHistory.v
theories/ProofsHostile.v
theories/ProofsHostileIter.v
theories/ProofsIter.v
theories/ProofsLen.v
theories/ProofsLimits.v
theories/ProofsLookups.v
theories/ProofsMacroErrors.v
theories/ProofsMacros.v
theories/ProofsMade.v
theories/ProofsMagnitude.v
theories/ProofsMaps.v
theories/ProofsOrder.v
theories/ProofsParsing.v
theories/ProofsPhases.v
theories/ProofsPretty.v
theories/ProofsProcMacro.v
theories/ProofsProps.v
theories/ProofsRun.v
theories/ProofsSafe.v
theories/ProofsScalar.v
theories/ProofsScalarIndex.v
theories/ProofsScan.v
theories/ProofsSerde.v
theories/ProofsSetHistory.v
theories/ProofsSetProps.v
theories/ProofsSlices.v
theories/ProofsSlicesExact.v
theories/ProofsSplice.v
theories/ProofsStacked.v
theories/ProofsTable.v
theories/ProofsTarget.v
theories/ProofsTokens.v
theories/ProofsTypes.v
theories/ProofsTypesEmit.v
theories/ProofsUtilProps.v
theories/ProofsWidth.v
theories/ProofsWork.v
theories/ProofsWorkLog.v
theories/PropertiesAccess.v
theories/PropertiesAliasing.v
theories/PropertiesArith.v
theories/PropertiesAsked.v
theories/PropertiesCalls.v
theories/PropertiesClone.v
theories/PropertiesCollect.v
theories/PropertiesCovers.v
theories/PropertiesCross.v
theories/PropertiesDebug.v
theories/PropertiesDerive.v
theories/PropertiesDisjoint.v
theories/PropertiesEmit.v
theories/PropertiesForward.v
theories/PropertiesHasher.v
theories/PropertiesHistory.v
theories/PropertiesHostile.v
theories/PropertiesHostileIter.v
theories/PropertiesLen.v
theories/PropertiesMacros.v
theories/PropertiesMagnitude.v
theories/PropertiesMaps.v
theories/PropertiesOrder.v
theories/PropertiesParsing.v
theories/PropertiesPhases.v
theories/PropertiesPretty.v
theories/PropertiesProcMacro.v
theories/PropertiesSafe.v
theories/PropertiesScalar.v
theories/PropertiesScan.v
theories/PropertiesSerde.v
theories/PropertiesSetHistory.v
theories/PropertiesSets.v
theories/PropertiesTarget.v
theories/PropertiesTokens.v
theories/PropertiesTypes.v
theories/PropertiesUtils.v
theories/PropertiesWidth.v
theories/PropertiesWork.v
theories/Spec.v
theories/SpecAccess.v
theories/SpecAliasing.v
theories/SpecAnalysis.v
theories/SpecAsked.v
theories/SpecCalls.v
theories/SpecClone.v
theories/SpecCollect.v
theories/SpecCovers.v
theories/SpecCross.v
theories/SpecDebug.v
theories/SpecDerive.v
theories/SpecDisjoint.v
theories/SpecEmit.v
theories/SpecForward.v
theories/SpecHasher.v
theories/SpecHistory.v
theories/SpecHostile.v
theories/SpecHostileIter.v
theories/SpecLen.v
theories/SpecMacros.v
theories/SpecMade.v
theories/SpecMagnitude.v
theories/SpecOrder.v
theories/SpecParsing.v
theories/SpecPhases.v
theories/SpecPretty.v
theories/SpecProcMacro.v
theories/SpecRun.v
theories/SpecSafe.v
theories/SpecScan.v
theories/SpecSerde.v
theories/SpecSetHistory.v
theories/SpecSets.v
theories/SpecTarget.v
theories/SpecTokens.v
theories/SpecTypes.v
theories/SpecWork.v
