-Q theories Verif
theories/Assembler_Model.v
theories/Assembler_Spec.v
theories/Assembler_Proofs.v
theories/AssemblerSparse_Proofs.v
theories/AssemblerHistory_Proofs.v
theories/Assembler_Props.v
theories/Binding_Model.v
theories/Binding_Spec.v
theories/Binding_Proofs.v
theories/Binding_Props.v
theories/Dirichlet_Model.v
theories/Dirichlet_Spec.v
theories/Dirichlet_Proofs.v
theories/Dirichlet_Props.v
theories/Broadcast_Model.v
theories/Broadcast_Spec.v
theories/Broadcast_Proofs.v
theories/Broadcast_Props.v
theories/Newton_Model.v
theories/Newton_Spec.v
theories/Newton_Proofs.v
theories/Newton_Props.v
theories/NewtonLinear_Props.v
theories/Control_Model.v
theories/Control_Spec.v
theories/Control_Proofs.v
theories/Control_Props.v
theories/RoundedLoad_Props.v
theories/PathFunctions_Model.v
theories/PathFunctions_Spec.v
theories/PathFunctions_Proofs.v
theories/PathFunctions_Props.v
theories/TCG_Model.v
theories/TrustRegion_Model.v
theories/TrustRegion_Spec.v
theories/TrustRegion_Proofs.v
theories/TrustRegionReal_Proofs.v
theories/TrustRegion_Props.v
theories/TCG_Proofs.v
theories/TCG_Props.v
theories/FERequirements_Model.v
theories/FERequirements_Spec.v
theories/FERequirements_Proofs.v
theories/FERequirements_Props.v
theories/Utils_Model.v
theories/Utils_Proofs.v
theories/Utils_Props.v
theories/Tensor_Model.v
theories/Tensor_Spec.v
theories/Tensor_Props.v
theories/LinearAlgebra_Model.v
theories/LinearAlgebra_Spec.v
theories/LinearAlgebra_Proofs.v
theories/LinearAlgebra_Props.v
theories/SVK_Model.v
theories/SVK_Spec.v
theories/SVK_Props.v
theories/VanishingStress_Model.v
theories/VanishingStress_Spec.v
theories/VanishingStress_Props.v
theories/NeoHooke_Model.v
theories/NeoHooke_Props.v
theories/NeoHookeInversion_Proofs.v
theories/NeoHookeInversion_Props.v
theories/Conversions_Model.v
theories/Conversions_Spec.v
theories/Conversions_Props.v
theories/Volumetric_Model.v
theories/Volumetric_Props.v
theories/Deviatoric_Model.v
theories/Deviatoric_Spec.v
theories/Deviatoric_Proofs.v
theories/Deviatoric_Props.v
theories/Lame_Model.v
theories/Lame_Props.v
theories/Truss_Model.v
theories/Truss_Props.v
theories/Results_Model.v
theories/Results_Spec.v
theories/Results_Props.v
theories/NumericalInversion_Model.v
theories/NumericalInversion_Props.v
theories/EigenSolver_Model.v
theories/EigenSolver_Props.v
theories/FEHelper_Model.v
theories/FEHelper_Props.v
theories/Hyperelastic_Spec.v
theories/Spectral_Proofs.v
theories/Hyperelastic_Model.v
theories/Stretches_Proofs.v
theories/Hyperelastic_Proofs.v
theories/HyperelasticIsotropy_Proofs.v
theories/SpectralExistence_Proofs.v
theories/Hyperelastic_Props.v
theories/HyperelasticCheck_Model.v
theories/HyperelasticCheck_Props.v
theories/Condensation_Model.v
theories/Condensation_Spec.v
theories/Condensation_Proofs.v
theories/NewtonState_Proofs.v
theories/Condensation_Props.v
theories/TrustRegionState_Model.v
theories/TrustRegionState_Props.v
theories/NewtonLoad_Props.v
theories/NewtonInvariant_Proofs.v
theories/Idbc_Model.v
theories/Idbc_Proofs.v
theories/Idbc_Props.v
theories/Element_Spec.v
theories/Element_Model.v
theories/Element_Proofs.v
theories/Element_Props.v
theories/Shell_Model.v
theories/Shell_Proofs.v
theories/Shell_Props.v
theories/Objectivity_Spec.v
theories/Objectivity_Props.v
theories/NewtonSteps_Props.v
theories/LinearSolver_Model.v
theories/LinearSolver_Props.v
theories/Eas_Model.v
theories/Eas_Spec.v
theories/Eas_Proofs.v
theories/Eas_Props.v
theories/EasStrains_Props.v
theories/EasModes_Props.v
theories/EasInvertible_Props.v
theories/EasGradientInvertible_Props.v
theories/Pressure_Model.v
theories/Pressure_Props.v
theories/PressureMaterial_Model.v
theories/PressureMaterial_Props.v
theories/AssumedStress_Model.v
theories/AssumedStress_Spec.v
theories/AssumedStress_Proofs.v
theories/AssumedStress_Props.v
theories/AssumedStressEnergy_Props.v
theories/AssumedStressModes_Props.v
theories/LambertW_Model.v
theories/LambertW_Proofs.v
theories/LambertW_Props.v
theories/Output_Model.v
theories/Output_Props.v
theories/FieldShape_Model.v
theories/FieldShape_Spec.v
theories/FieldShape_Props.v
theories/Lifetime_Model.v
theories/Lifetime_Props.v
theories/Logger_Model.v
theories/Logger_Props.v
theories/ControlLogger_Model.v
theories/ControlLogger_Props.v
theories/Nodes_Model.v
theories/Nodes_Props.v
theories/FlatBasis_Model.v
theories/FlatBasis_Props.v
theories/Sanity_Model.v
theories/Sanity_Props.v
theories/Factory_Model.v
theories/Factory_Props.v
theories/AutoDiff_Model.v
theories/AutoDiff_Props.v
theories/AutoDiffMaterial_Model.v
theories/AutoDiffMaterial_Props.v
theories/PythonLifetime_Model.v
theories/PythonLifetime_Props.v
theories/PythonSparse_Model.v
theories/PythonSparse_Props.v
theories/PythonBinding_Model.v
theories/PythonBinding_Props.v
theories/PythonMaterial_Model.v
theories/PythonMaterial_Props.v
theories/Muesli_Model.v
theories/Muesli_Props.v
theories/Result_Model.v
theories/Result_Props.v
theories/VanishingTangent_Props.v
theories/TrustRegionCauchy_Props.v
theories/AssemblyMesh_Model.v
theories/TrussSkill_Props.v
theories/AssemblyMesh_Props.v
theories/StructureNewton_Model.v
theories/StructureNewton_Props.v
theories/StructureReactions_Props.v
theories/LinearStructure_Props.v
theories/LoadCases_Props.v
theories/FullReduced_Props.v
theories/Numbering_Props.v
theories/PatchTest_Props.v
theories/ListenerView_Props.v
theories/TrustListenerView_Props.v
theories/Coordinates_Props.v
theories/Descriptions_Props.v
theories/BlockVector_Model.v
theories/BlockVector_Props.v
theories/DiagonalMatrix_Model.v
theories/DiagonalMatrix_Props.v
theories/TCGReport_Model.v
theories/TCGReport_Props.v
theories/SanityZero_Props.v
theories/ElementLife_Model.v
theories/ElementLife_Props.v
theories/StructureLoad_Model.v
theories/StructureLoad_Props.v
theories/PathSizes_Model.v
theories/PathSizes_Props.v
theories/EigenDense_Model.v
theories/EigenDense_Props.v
theories/ArcLengthRun_Model.v
theories/ArcLengthRun_Props.v
theories/MaterialFactory_Model.v
theories/SmallStrain_Props.v
theories/ReducedMatrix_Model.v
theories/ReducedMatrix_Props.v
theories/StructureTrust_Model.v
theories/StructureTrust_Props.v
theories/CondensedEquilibrium_Props.v
theories/EasEquilibrium_Props.v
theories/AssumedStressEquilibrium_Props.v
theories/VanishingInversion_Model.v
theories/VanishingInversion_Spec.v
theories/VanishingInversion_Props.v
theories/PythonState_Model.v
theories/PythonState_Props.v
theories/FixBoundary_Model.v
theories/FixBoundary_Props.v
theories/StressResult_Model.v
theories/StressResult_Spec.v
theories/StressResult_Props.v
theories/PlanePressure_Model.v
theories/PlanePressure_Props.v
theories/FlatShell_Props.v
theories/ElementKinship_Props.v
theories/ShellCoordinates_Props.v
theories/CornerNumbering_Spec.v
theories/CornerNumbering_Proofs.v
theories/CornerModes_Proofs.v
theories/CornerNumbering_Props.v
theories/CondensedCoordinates_Props.v
theories/VariantKinship_Props.v
theories/PressureCoordinates_Props.v
theories/PressureBody_Props.v
theories/EnhancedBody_Props.v
theories/AssumedBody_Props.v
theories/Corotation_Props.v
theories/CondensedMotion_Props.v
theories/AssumedMotion_Props.v
theories/PressureMotion_Props.v
theories/TrussMotion_Props.v
theories/ResultDispatch_Model.v
theories/ResultDispatch_Spec.v
theories/ResultDispatch_Props.v
