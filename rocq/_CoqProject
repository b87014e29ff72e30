-Q theories Verif
theories/Base.v
theories/GraphExec_Model.v
theories/GraphExec_Proofs.v
theories/GraphExec_Spec.v
theories/GraphExec_Proofs2.v
theories/GraphExec_Proofs3.v
theories/GradHeap_Model.v
theories/GradHeap_Proofs.v
theories/GraphExec_Proofs4.v
theories/GraphExec_Props.v
theories/Plan_Model.v
theories/Plan_Spec.v
theories/Plan_Proofs.v
theories/Plan_Proofs2.v
theories/Plan_Proofs3.v
theories/Plan_Proofs4.v
theories/Plan_Proofs5.v
theories/Plan_Proofs6.v
theories/Plan_Toy.v
theories/Plan_Props.v
theories/Schema_Model.v
theories/Schema_Spec.v
theories/Schema_Proofs.v
theories/Schema_Proofs2.v
theories/Schema_Props.v
theories/Workspace_Model.v
theories/Workspace_Proofs.v
theories/Workspace_Props.v
theories/Solver_Model.v
theories/Solver_Spec.v
theories/Solver_Proofs.v
theories/Solver_Proofs2.v
theories/Solver_Props.v
theories/SimCache_Model.v
theories/SimCache_Spec.v
theories/SimCache_Proofs.v
theories/SimCache_Proofs2.v
theories/SimCache_Props.v
theories/QTac.v
theories/Raster_Model.v
theories/Raster_Spec.v
theories/Raster_Proofs.v
theories/Raster_Props.v
theories/Grid_Model.v
theories/Grid_Proofs.v
theories/Grid_Props.v
theories/Render_Model.v
theories/Render_Spec.v
theories/Render_Proofs.v
theories/Render_Props.v
theories/Param_Model.v
theories/Param_Spec.v
theories/Param_Proofs.v
theories/Param_Proofs2.v
theories/Param_Props.v
theories/CField.v
theories/CField_Proofs.v
theories/Maxwell_Model.v
theories/Maxwell_Spec.v
theories/Maxwell_Proofs.v
theories/Maxwell_Proofs2.v
theories/Maxwell_Proofs3.v
theories/Maxwell_Proofs4.v
theories/Gauss.v
theories/Maxwell_Props.v
theories/Pml_Model.v
theories/Pml_Spec.v
theories/Pml_Proofs.v
theories/Pml_Proofs2.v
theories/Pml_Proofs3.v
theories/Pml_Props.v
theories/Opt_Model.v
theories/Opt_Spec.v
theories/Opt_Proofs.v
theories/Opt_Proofs2.v
theories/Opt_Proofs3.v
theories/Opt_Props.v
theories/Grating_Model.v
theories/Grating_Spec.v
theories/Grating_Proofs.v
theories/Grating_Proofs2.v
theories/Grating_Proofs3.v
theories/Grating_Proofs4.v
theories/Grating_Props.v
theories/Select_Model.v
theories/Select_Spec.v
theories/Select_Proofs.v
theories/Select_Proofs2.v
theories/Select_Proofs3.v
theories/Select_Props.v
theories/Obj_Model.v
theories/Obj_Spec.v
theories/Obj_Proofs.v
theories/Obj_Proofs2.v
theories/Obj_Proofs3.v
theories/Obj_Proofs4.v
theories/Obj_Proofs5.v
theories/Obj_Proofs6.v
theories/Obj_Props.v
theories/Fit_Model.v
theories/Fit_Proofs.v
theories/Fit_Props.v
theories/Log_Model.v
theories/Log_Spec.v
theories/Log_Proofs.v
theories/Log_Props.v
theories/Gds_Model.v
theories/Gds_Spec.v
theories/Gds_Proofs.v
theories/Gds_Props.v
theories/Shape_Model.v
theories/Shape_Spec.v
theories/Shape_Proofs.v
theories/Shape_Props.v
theories/Raster2_Model.v
theories/Raster2_Spec.v
theories/Raster2_Proofs.v
theories/Raster2_Proofs2.v
theories/Raster2_Proofs3.v
theories/Raster2_Proofs4.v
theories/Raster2_Proofs5.v
theories/Raster2_Proofs6.v
theories/Raster2_Proofs7.v
theories/Raster2_Props.v
theories/Layer_Model.v
theories/Layer_Spec.v
theories/Layer_Proofs.v
theories/Layer_Proofs2.v
theories/Layer_Proofs3.v
theories/Layer_Proofs4.v
theories/Layer_Proofs5.v
theories/Layer_Proofs6.v
theories/Layer_Proofs7.v
theories/Layer_Proofs8.v
theories/Layer_Props.v
theories/GMath_Model.v
theories/HeapChain_Proofs.v
theories/GMath_Spec.v
theories/GMath_Proofs.v
theories/GMath_Proofs2.v
theories/GMath_Proofs3.v
theories/GMath_Proofs4.v
theories/GMath_Proofs5.v
theories/GMath_Proofs6.v
theories/GMath_Proofs7.v
theories/GMath_Proofs8.v
theories/GMath_Proofs9.v
theories/GMath_Proofs10.v
theories/GMath_Proofs11.v
theories/GMathOp_Spec.v
theories/GMathOp_Proofs.v
theories/GMath_Props.v
theories/LinAlg.v
theories/CplxField.v
theories/Adj_Model.v
theories/Adj_Spec.v
theories/Adj_Proofs.v
theories/Adj_Proofs2.v
theories/Adj_Proofs3.v
theories/Adj_Proofs4.v
theories/Adj_Proofs5.v
theories/Adj_Proofs6.v
theories/Adj_Proofs7.v
theories/Adj_Proofs8.v
theories/Adj_Props.v
theories/GenGds_Model.v
theories/GenGds_Spec.v
theories/GenGds_Proofs.v
theories/GenGds_Proofs2.v
theories/GenGds_Proofs3.v
theories/GenGds_Props.v
theories/Wg_Model.v
theories/Wg_Model2.v
theories/Wg_Spec.v
theories/Wg_Proofs.v
theories/Wg_Proofs2.v
theories/Wg_Proofs3.v
theories/Wg_Proofs4.v
theories/Wg_Proofs5.v
theories/Wg_Proofs6.v
theories/Wg_Proofs7.v
theories/Wg_Proofs8.v
theories/Wg_Proofs9.v
theories/Wg_Proofs10.v
theories/Wg_Proofs11.v
theories/Wg_Props.v
theories/Fs_Model.v
theories/Fs_Spec.v
theories/Fs_Proofs.v
theories/Fs_Proofs2.v
theories/Fs_Proofs3.v
theories/Fs_Proofs4.v
theories/Fs_Proofs5.v
theories/Fs_Proofs6.v
theories/Fs_Proofs7.v
theories/Fs_Proofs8.v
theories/Fs_Props.v
theories/Ov_Model.v
theories/Ov_Spec.v
theories/Ov_Proofs.v
theories/Ov_Proofs2.v
theories/Ov_Proofs3.v
theories/Ov_Proofs4.v
theories/Ov_Proofs5.v
theories/Ov_Proofs6.v
theories/Ov_Props.v
theories/Cub_Model.v
theories/Cub_Spec.v
theories/Cub_Proofs.v
theories/Cub_Proofs2.v
theories/Cub_Proofs3.v
theories/Cub_Proofs4.v
theories/Cub_Proofs5.v
theories/Cub_Proofs6.v
theories/Cub_Proofs7.v
theories/Cub_Proofs8.v
theories/Cub_Proofs9.v
theories/Cub_Proofs10.v
theories/Cub_Proofs11.v
theories/Cub_Proofs12.v
theories/Cub_Proofs13.v
theories/Cub_Props.v
theories/OptRun_Model.v
theories/OptRun_Spec.v
theories/OptRun_Proofs.v
theories/OptRun_Proofs2.v
theories/OptRun_Proofs3.v
theories/OptRun_Props.v
theories/EmObj_Model.v
theories/EmObj_Spec.v
theories/EmObj_Proofs.v
theories/EmObj_Proofs2.v
theories/EmObj_Proofs3.v
theories/EmObj_Proofs4.v
theories/EmObj_Proofs5.v
theories/EmObj_Props.v
theories/Ff_Model.v
theories/Ff_Spec.v
theories/Ff_Proofs.v
theories/Ff_Proofs2.v
theories/Ff_Proofs3.v
theories/Ff_Proofs4.v
theories/Ff_Proofs5.v
theories/Ff_Proofs6.v
theories/Ff_Props.v
theories/Flow_Model.v
theories/Flow_Spec.v
theories/Flow_Proofs.v
theories/Flow_Proofs2.v
theories/Flow_Proofs3.v
theories/Flow_Proofs4.v
theories/Flow_Props.v
theories/Bench_Model.v
theories/Bench_Spec.v
theories/Bench_Proofs.v
theories/Bench_Props.v
theories/Descent_Model.v
theories/Descent_Spec.v
theories/Descent_Proofs.v
theories/Descent_Proofs2.v
theories/Descent_Props.v
theories/Phc_Model.v
theories/Phc_Spec.v
theories/Phc_Proofs.v
theories/Phc_Proofs2.v
theories/Phc_Proofs3.v
theories/Phc_Props.v
theories/Reg_Model.v
theories/Reg_Spec.v
theories/Reg_Proofs.v
theories/Reg_Proofs2.v
theories/Reg_Proofs3.v
theories/Reg_Props.v
theories/Space_Model.v
theories/Space_Spec.v
theories/Space_Proofs.v
theories/Space_Proofs2.v
theories/Space_Props.v
theories/Slice_Model.v
theories/Slice_Spec.v
theories/Slice_Proofs.v
theories/Slice_Proofs2.v
theories/Slice_Props.v
theories/Eig_Model.v
theories/Eig_Spec.v
theories/Eig_Proofs.v
theories/Eig_Proofs2.v
theories/Eig_Props.v
theories/Remote_Model.v
theories/Remote_Spec.v
theories/Remote_Proofs.v
theories/Remote_Proofs2.v
theories/Remote_Props.v
theories/Skew_Model.v
theories/Skew_Spec.v
theories/Skew_Proofs.v
theories/Skew_Proofs2.v
theories/Skew_Proofs3.v
theories/Skew_Proofs4.v
theories/Skew_Props.v
theories/Imp_Model.v
theories/Imp_Spec.v
theories/Imp_Proofs.v
theories/Imp_Proofs2.v
theories/Imp_Proofs3.v
theories/Imp_Props.v
theories/Orth_Model.v
theories/Orth_Spec.v
theories/Orth_Proofs.v
theories/Orth_Proofs2.v
theories/Orth_Proofs3.v
theories/Orth_Proofs4.v
theories/Orth_Props.v
theories/Mon_Model.v
theories/Mon_Spec.v
theories/Mon_Proofs.v
theories/Mon_Proofs2.v
theories/Mon_Proofs3.v
theories/Mon_Props.v
theories/Far_Model.v
theories/Far_Spec.v
theories/Far_Proofs.v
theories/Far_Proofs2.v
theories/Far_Proofs3.v
theories/Far_Proofs4.v
theories/Far_Proofs5.v
theories/Far_Props.v
theories/Mir_Model.v
theories/Mir_Spec.v
theories/Mir_Proofs.v
theories/Mir_Proofs2.v
theories/Mir_Proofs3.v
theories/Mir_Props.v
theories/Mat_Data.v
theories/Mat_Model.v
theories/Mat_Spec.v
theories/Mat_Proofs.v
theories/Mat_Proofs2.v
theories/Mat_Props.v
theories/Qmr_Model.v
theories/Qmr_Spec.v
theories/Qmr_Proofs.v
theories/Qmr_Props.v
theories/Stk_Model.v
theories/Stk_Spec.v
theories/Stk_Proofs.v
theories/Stk_Props.v
theories/Her_Model.v
theories/Her_Spec.v
theories/Her_Proofs.v
theories/Her_Props.v
