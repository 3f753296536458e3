-Q theories Verif
theories/EventInterval_Model.v
theories/EventInterval_Spec.v
theories/EventInterval_Proofs.v
theories/Run_Model.v
theories/Run_Spec.v
theories/Run_Proofs.v
theories/EventInterval_Props.v
theories/Run_Props.v
theories/Functions_Model.v
theories/Functions_Spec.v
theories/Functions_Proofs.v
theories/Functions_Props.v
theories/Quat_Model.v
theories/Quat_Spec.v
theories/Quat_Proofs.v
theories/Quat_DerivProofs.v
theories/Quat_Props.v
theories/QuatCoarsen_Model.v
theories/QuatCoarsen_Spec.v
theories/QuatCoarsen_Proofs.v
theories/QuatCoarsen_Props.v
theories/Grid_Model.v
theories/Grid_Spec.v
theories/Grid_Proofs.v
theories/Transport_Model.v
theories/Transport_Spec.v
theories/Transport_Proofs.v
theories/Transport_Props.v
theories/AntiTrap_Model.v
theories/AntiTrap_Spec.v
theories/AntiTrap_Proofs.v
theories/AntiTrap_Props.v
theories/Forces_Model.v
theories/Forces_Spec.v
theories/Forces_Proofs.v
theories/Forces_Props.v
theories/Schedule_Spec.v
theories/Schedule_Proofs.v
theories/Schedule_Props.v
theories/Tilting_Model.v
theories/Tilting_Spec.v
theories/Tilting_Proofs.v
theories/Tilting_Props.v
theories/ThreePhase_Model.v
theories/ThreePhase_Spec.v
theories/ThreePhase_Proofs.v
theories/ThreePhase_Props.v
theories/Stencils_Model.v
theories/Stencils_Spec.v
theories/Stencils_Proofs.v
theories/Stencils_Props.v
theories/Partition_Model.v
theories/Partition_Spec.v
theories/Partition_Proofs.v
theories/Partition_Props.v
theories/Weights_Model.v
theories/Weights_Spec.v
theories/Weights_Proofs.v
theories/Weights_Props.v
theories/Energy_Model.v
theories/Energy_Spec.v
theories/Energy_Proofs.v
theories/Energy_Props.v
theories/Tools_Model.v
theories/Tools_Spec.v
theories/Tools_Proofs.v
theories/Tools_Props.v
theories/Grains_Model.v
theories/Grains_Spec.v
theories/Grains_Proofs.v
theories/Grains_Props.v
theories/Tagging_Model.v
theories/Tagging_Spec.v
theories/Tagging_Proofs.v
theories/Tagging_Props.v
theories/Noise_Model.v
theories/Noise_Spec.v
theories/Noise_Proofs.v
theories/Noise_Props.v
theories/BcCoefs_Model.v
theories/BcCoefs_Spec.v
theories/BcCoefs_Proofs.v
theories/BcCoefs_Props.v
theories/TempHistory_Model.v
theories/TempHistory_Spec.v
theories/TempHistory_Proofs.v
theories/TempHistory_Props.v
theories/MovingFrame_Model.v
theories/MovingFrame_Spec.v
theories/MovingFrame_Proofs.v
theories/MovingFrame_Props.v
theories/RunName_Model.v
theories/RunName_Spec.v
theories/RunName_Proofs.v
theories/RunName_Props.v
theories/QuatFlow_Model.v
theories/QuatFlow_Spec.v
theories/QuatFlow_Proofs.v
theories/QuatFlow_Props.v
theories/PhaseFlow_Model.v
theories/PhaseFlow_Spec.v
theories/PhaseFlow_Proofs.v
theories/PhaseFlow_Props.v
theories/KKS_Model.v
theories/KKS_Spec.v
theories/KKS_Proofs.v
theories/KKS_Props.v
theories/Elliptic_Model.v
theories/Elliptic_Spec.v
theories/Elliptic_Proofs.v
theories/Elliptic_Props.v
theories/Precond_Model.v
theories/Precond_Spec.v
theories/Precond_Proofs.v
theories/Precond_Props.v
theories/Diffusion_Model.v
theories/Diffusion_Spec.v
theories/Diffusion_Proofs.v
theories/Diffusion_Props.v
theories/QuatSolver_Model.v
theories/QuatSolver_Spec.v
theories/QuatSolver_Proofs.v
theories/QuatSolver_Props.v
theories/Sintering_Model.v
theories/Sintering_Spec.v
theories/Sintering_Proofs.v
theories/Sintering_Props.v
theories/BcFill_Model.v
theories/BcFill_Spec.v
theories/BcFill_Proofs.v
theories/BcFill_Props.v
theories/Temperature_Model.v
theories/Temperature_Spec.v
theories/Temperature_Proofs.v
theories/Temperature_Props.v
theories/InitFile_Model.v
theories/InitFile_Spec.v
theories/InitFile_Proofs.v
theories/InitFile_Props.v
theories/GrainData_Model.v
theories/GrainData_Spec.v
theories/GrainData_Proofs.v
theories/GrainData_Props.v
theories/Smooth_Model.v
theories/Smooth_Spec.v
theories/Smooth_Proofs.v
theories/Smooth_Props.v
theories/Mobility_Model.v
theories/Mobility_Spec.v
theories/Mobility_Proofs.v
theories/Mobility_Props.v
theories/PhaseMob_Model.v
theories/PhaseMob_Spec.v
theories/PhaseMob_Proofs.v
theories/PhaseMob_Props.v
theories/QuatMob_Model.v
theories/QuatMob_Spec.v
theories/QuatMob_Proofs.v
theories/QuatMob_Props.v
theories/RhsEval_Model.v
theories/RhsEval_Spec.v
theories/RhsEval_Proofs.v
theories/RhsEval_Props.v
theories/DbCopy_Model.v
theories/DbCopy_Spec.v
theories/DbCopy_Proofs.v
theories/DbCopy_Props.v
theories/PrecSolve_Model.v
theories/PrecSolve_Spec.v
theories/PrecSolve_Proofs.v
theories/PrecSolve_Props.v
theories/Trap3_Model.v
theories/Trap3_Spec.v
theories/Trap3_Proofs.v
theories/Trap3_Props.v
theories/Flow3_Model.v
theories/Flow3_Spec.v
theories/Flow3_Proofs.v
theories/Flow3_Props.v
theories/Energy3_Model.v
theories/Energy3_Spec.v
theories/Energy3_Proofs.v
theories/Energy3_Props.v
theories/QuatFlow3_Model.v
theories/QuatFlow3_Spec.v
theories/QuatFlow3_Proofs.v
theories/QuatFlow3_Props.v
theories/Diff3_Model.v
theories/Diff3_Spec.v
theories/Diff3_Proofs.v
theories/Diff3_Props.v
theories/Coupl_Model.v
theories/Coupl_Spec.v
theories/Coupl_Proofs.v
theories/Coupl_Props.v
theories/Elliptic3_Model.v
theories/Elliptic3_Spec.v
theories/Elliptic3_Proofs.v
theories/Elliptic3_Props.v
theories/Hypre_Model.v
theories/Hypre_Spec.v
theories/Hypre_Proofs.v
theories/Hypre_Props.v
theories/Sinter3_Model.v
theories/Sinter3_Spec.v
theories/Sinter3_Proofs.v
theories/Sinter3_Props.v
theories/PtrDiff_Model.v
theories/PtrDiff_Spec.v
theories/PtrDiff_Proofs.v
theories/PtrDiff_Props.v
theories/QuatCoarsen3_Model.v
theories/QuatCoarsen3_Spec.v
theories/QuatCoarsen3_Proofs.v
theories/QuatCoarsen3_Props.v
theories/Temperature3_Model.v
theories/Temperature3_Spec.v
theories/Temperature3_Proofs.v
theories/Temperature3_Props.v
theories/Report_Model.v
theories/Report_Spec.v
theories/Report_Proofs.v
theories/Report_Props.v
theories/DiffVisit_Model.v
theories/DiffVisit_Spec.v
theories/DiffVisit_Proofs.v
theories/DiffVisit_Props.v
