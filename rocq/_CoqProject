-Q theories Verif
theories/Base.v
theories/Csr_Model.v
theories/Csr_Proofs.v
theories/Ops_Proofs.v
theories/Assembly_Model.v
theories/Assembly_Spec.v
theories/Assembly_Proofs.v
theories/AssemblyMain_Proofs.v
theories/Values_Proofs.v
theories/Csr_Props.v
theories/Assembly_Props.v
theories/Dof_Model.v
theories/Dof_Spec.v
theories/Dof_Proofs.v
theories/Dof_Props.v
theories/Bc_Model.v
theories/Bc_Proofs.v
theories/BcCreate_Proofs.v
theories/Bc_Props.v
theories/LinSolve_Model.v
theories/LinSolve_Spec.v
theories/LinSolve_Proofs.v
theories/LinSolve_Props.v
theories/Num_Model.v
theories/Newton_Model.v
theories/Newton_Spec.v
theories/Newton_Proofs.v
theories/Newton_Props.v
theories/Pbc_Model.v
theories/Pbc_Spec.v
theories/Pbc_Proofs.v
theories/Pbc_Props.v
theories/Reduced_Model.v
theories/Reduced_Spec.v
theories/Reduced_Proofs.v
theories/Reduced_Props.v
theories/TimeRun_Model.v
theories/TimeRun_Proofs.v
theories/TimeRun_Props.v
theories/ZArr.v
theories/Grid_Model.v
theories/Grid_Proofs.v
theories/Grid_Props.v
theories/Band_Model.v
theories/Band_Proofs.v
theories/Band_Props.v
theories/Mesh_Model.v
theories/Mesh_Proofs.v
theories/Mesh_Props.v
theories/Cmg_Model.v
theories/Cmg_Proofs.v
theories/Smooth_Proofs.v
theories/Cmg_Props.v
theories/Params_Model.v
theories/Params_Props.v
theories/Options_Model.v
theories/Options_Props.v
theories/Dispatch_Props.v
theories/Direct_Model.v
theories/Direct_Props.v
theories/Merge_Model.v
theories/Merge_Proofs.v
theories/Merge_Props.v
theories/Graph_Model.v
theories/Graph_Props.v
theories/Optimizer_Model.v
theories/Continuation_Props.v
theories/Optimizer_Props.v
theories/OptSetup_Props.v
theories/Oc_Model.v
theories/Oc_Props.v
theories/NbLoop_Props.v
theories/Filter_Model.v
theories/SensFilter_Props.v
theories/DensFilter_Props.v
theories/Threshold_Props.v
theories/Basis_Model.v
theories/Basis_Spec.v
theories/Basis_Props.v
theories/Lifecycle_Model.v
theories/Lifecycle_Props.v
theories/SurfaceSkip_Model.v
theories/SurfaceSkip_Props.v
theories/UnitCell_Model.v
theories/UnitCell_Spec.v
theories/UnitCell_Proofs.v
theories/UnitCell_Props.v
theories/Cyclic_Props.v
theories/Kernel_Model.v
theories/Kernel_Spec.v
theories/Kernel_Proofs.v
theories/Kernel_Props.v
theories/Homog_Model.v
theories/Homog_Spec.v
theories/Homog_Props.v
theories/Young_Model.v
theories/Young_Props.v
theories/Mdmm_Model.v
theories/Mdmm_Spec.v
theories/Mdmm_Props.v
theories/Orient_Model.v
theories/Orient_Props.v
theories/Closure_Model.v
theories/Closure_Spec.v
theories/Closure_Proofs.v
theories/Closure_Props.v
theories/Stiff_Props.v
theories/Cohesive_Model.v
theories/Cohesive_Props.v
theories/CohesiveInterface_Props.v
theories/Response_Model.v
theories/Response_Props.v
theories/VolFrac_Props.v
theories/Tmc_Model.v
theories/Tmc_Props.v
theories/Adaptive_Model.v
theories/Adaptive_Props.v
theories/AdaptiveGrad_Props.v
theories/AdaptiveBox_Props.v
theories/Sdf_Model.v
theories/Sdf_Props.v
theories/DensityField_Props.v
theories/Copv_Model.v
theories/Copv_Props.v
theories/CopvCells_Props.v
theories/CopvBc_Props.v
theories/CopvWinding_Props.v
theories/Layered_Model.v
theories/LayeredRot_Props.v
theories/LayeredStiff_Props.v
theories/LayeredQuad_Props.v
theories/LayeredElem_Props.v
theories/Shell_Model.v
theories/Shell_Props.v
theories/ShellLam_Props.v
theories/Mindlin_Props.v
theories/Profiler_Model.v
theories/Profiler_Props.v
theories/Eigen_Model.v
theories/Eigen_Props.v
theories/EigenGrad_Props.v
theories/FeFace_Model.v
theories/FeFace_Props.v
theories/Amg_Model.v
theories/Amg_Props.v
theories/Writer_Model.v
theories/Writer_Props.v
theories/CmgSolve_Model.v
theories/CmgLevels_Model.v
theories/CmgElem_Props.v
theories/CmgInt_Props.v
theories/CmgSolve_Props.v
theories/CmgPad_Props.v
theories/CmgGrad_Props.v
theories/CmgLevels_Props.v
theories/Helmholtz_Model.v
theories/Helmholtz_Props.v
theories/Launch_Model.v
theories/Launch_Props.v
theories/Extra_Model.v
theories/Extra_Props.v
theories/AmgLag_Model.v
theories/AmgLag_Props.v
theories/Cylinder_Model.v
theories/Cylinder_Props.v
theories/LinCheck_Model.v
theories/LinCheck_Props.v
theories/Krylov_Model.v
theories/Krylov_Props.v
theories/TimeGrad_Model.v
theories/TimeGrad_Props.v
theories/RedNull_Model.v
theories/RedNull_Props.v
theories/Refine_Model.v
theories/Refine_Props.v
theories/BoxDiv_Model.v
theories/BoxDiv_Props.v
theories/Session_Model.v
theories/Session_Props.v
theories/Race_Model.v
theories/Race_Props.v
theories/ProbInit_Model.v
theories/ProbInit_Props.v
theories/FaceQuad_Model.v
theories/FaceQuad_Props.v
theories/VtkLoad_Model.v
theories/VtkLoad_Props.v
theories/Color_Model.v
theories/Color_Props.v
theories/Patch_Model.v
theories/Patch_Props.v
theories/Renum_Props.v
theories/Guess_Model.v
theories/Guess_Props.v
theories/CmgSmooth_Props.v
theories/Moment_Props.v
theories/Potential_Props.v
theories/Objective_Props.v
theories/Linear_Props.v
theories/Stiffness_Props.v
theories/Comply_Props.v
theories/Chain_Model.v
theories/Chain_Props.v
theories/Diffuse_Props.v
theories/Mixed_Props.v
theories/Converge_Props.v
theories/KernelGeom_Props.v
theories/Bounds_Props.v
theories/Maximum_Props.v
theories/TimeFloat_Model.v
theories/TimeFloat_Props.v
theories/CmgSweep_Props.v
theories/Warm_Props.v
theories/Similar_Props.v
theories/ParamKinds_Props.v
theories/Explicit_Model.v
theories/Explicit_Props.v
theories/NewtonTol_Props.v
theories/Select_Props.v
theories/ParamFn_Model.v
theories/ParamFn_Props.v
theories/GraphField_Props.v
theories/Oriented_Model.v
theories/Oriented_Props.v
theories/UnitClass_Model.v
theories/UnitClass_Props.v
theories/BcConfig_Model.v
theories/BcConfig_Props.v
theories/Serendip_Model.v
theories/Serendip_Props.v
theories/ShapeFn_Model.v
theories/ShapeFn_Props.v
theories/Underint_Props.v
theories/Modes_Props.v
