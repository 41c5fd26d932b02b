-Q theories Verif
theories/RUtil.v
theories/Time_Model.v
theories/Time_Spec.v
theories/Time_Spec2.v
theories/Time_Proofs.v
theories/Time_Proofs2.v
theories/Time_Proofs3.v
theories/Time_Proofs4.v
theories/Time_Props.v
theories/Avg_Model.v
theories/Avg_Spec.v
theories/Avg_Proofs.v
theories/Avg_Props.v
theories/Interp_Model.v
theories/Interp_Props.v
theories/Simd_Model.v
theories/Simd_Props.v
theories/Edge_Model.v
theories/Edge_Proofs.v
theories/Edge_Props.v
theories/Tensor_Model.v
theories/Tensor_Props.v
theories/Graph_Model.v
theories/Graph_Proofs.v
theories/Graph_Props.v
theories/Sum_Model.v
theories/Sum_Proofs.v
theories/Sum_Props.v
theories/Sys_Model.v
theories/Sys_Props.v
theories/Motion_Model.v
theories/Motion_Spec.v
theories/Motion_Props.v
theories/Motion_Props2.v
theories/Motion_Props3.v
theories/Periodic_Model.v
theories/Periodic_Props.v
theories/ME_Model.v
theories/ME_Spec.v
theories/ME_Props.v
theories/ME_Props2.v
theories/ME_Props3.v
theories/ME_Shape_Model.v
theories/ME_Shape_Spec.v
theories/ME_Shape_Props.v
theories/ME_Shape_Props2.v
theories/ME_Point_Model.v
theories/ME_Point_Spec.v
theories/ME_Point_Props.v
theories/ME_Point_Props2.v
theories/ME_Point_Props3.v
theories/ME_Point_Props4.v
theories/ME_Point_Props5.v
theories/ME_Point_Props6.v
theories/ME_Face_Model.v
theories/ME_Face_Spec.v
theories/ME_Face_Props.v
theories/ME_Face_Props2.v
theories/ME_Face_Props3.v
theories/Elem_Model.v
theories/Elem_Spec.v
theories/Elem_Proofs.v
theories/Elem_Proofs2.v
theories/Elem_Proofs3.v
theories/Elem_Props.v
theories/Elem_Props2.v
theories/Elem_Props3.v
theories/Elem_Props4.v
theories/Opt_Model.v
theories/Opt_Spec.v
theories/Opt_Props.v
theories/Opt_Props2.v
theories/Prop_Model.v
theories/Prop_Props.v
theories/Prop_Props2.v
theories/Gas_Model.v
theories/Gas_Spec.v
theories/Gas_Props.v
theories/Gas_Props2.v
theories/Gas_Props3.v
theories/Geom_Model.v
theories/Geom_Spec.v
theories/Geom_Props.v
theories/Geom_Props2.v
theories/Geom_Props3.v
theories/Geom_Props4.v
theories/Tab_LU_Model.v
theories/Tab_LU_Props.v
theories/Tab_Spline_Model.v
theories/Tab_Spline_Props.v
theories/Tab_Spline_Props2.v
theories/Tab_Spline_Props3.v
theories/Tab_Spline_Props4.v
theories/Tab_Spline2_Model.v
theories/Tab_Spline2_Props.v
theories/Tab_Query_Model.v
theories/Tab_Query_Props.v
theories/Tab_Query_Props2.v
theories/Rad_Quad_Model.v
theories/Rad_Quad_Proofs.v
theories/Rad_Quad_Proofs2.v
theories/Rad_Quad_Proofs3.v
theories/Rad_Quad_Props.v
theories/Rad_Model.v
theories/Rad_Props.v
theories/Rad_Props2.v
theories/Rad_Props3.v
theories/Rad_Props4.v
theories/Rad_Props5.v
theories/Turb_Model.v
theories/Turb_Props.v
theories/Turb_Props2.v
theories/Turb_Props3.v
theories/Wall_Model.v
theories/Wall_Props.v
theories/Wall_Props2.v
theories/MMS_Model.v
theories/MMS_Spec.v
theories/MMS_Props.v
theories/MMS_Props2.v
theories/MMS_Props3.v
theories/MMS_Props4.v
theories/MMS_Vortex_Model.v
theories/MMS_Props5.v
theories/MMS_Props6.v
theories/Aux_Model.v
theories/Aux_Spec.v
theories/Aux_Props.v
theories/Aux_Props2.v
theories/Aux_Props3.v
theories/Aux_Props4.v
theories/Bnd_Model.v
theories/Bnd_Spec.v
theories/Bnd_Proofs.v
theories/Bnd_Props.v
theories/Bnd_Props2.v
theories/Bnd_Props3.v
theories/Bnd_Props4.v
theories/Bnd_Props5.v
theories/Force_Model.v
theories/Force_Spec.v
theories/Force_Proofs.v
theories/Force_Props.v
theories/Force_Props2.v
theories/Force_Props3.v
theories/Max_Model.v
theories/Max_Spec.v
theories/Max_Props.v
theories/Max_Props2.v
theories/Fix_Model.v
theories/Fix_Props.v
theories/Overset_Model.v
theories/Overset_Props.v
theories/Overset_Props2.v
theories/Cut_Model.v
theories/Cut_Props.v
theories/Cut_Props2.v
theories/NC_Model.v
theories/NC_Props.v
theories/NC_Props2.v
theories/NC_Props3.v
theories/NC_Props4.v
theories/NCS_Model.v
theories/NCS_Props.v
theories/NCS_Props2.v
theories/Xfer_Model.v
theories/Xfer_Props.v
theories/Xfer_Props2.v
theories/Xfer_Props3.v
theories/Norm_Model.v
theories/Norm_Props.v
theories/Norm_Props2.v
theories/Probe_Model.v
theories/Probe_Props.v
theories/Probe_Props2.v
theories/Probe_Props3.v
theories/Disp_Model.v
theories/Disp_Spec.v
theories/Disp_Props.v
theories/Disp_Props2.v
theories/Disp_Props3.v
theories/Fem_Model.v
theories/Fem_Spec.v
theories/Fem_Props.v
theories/Fem_Props2.v
theories/Fem_Props3.v
theories/Fem_Props4.v
theories/Fem_Props5.v
theories/Vof_Model.v
theories/Vof_Model2.v
theories/Vof_Spec.v
theories/Vof_Props.v
theories/Vof_Props2.v
theories/Vof_Props3.v
theories/Vof_Props4.v
theories/Vof_Props5.v
theories/Vof_Props6.v
theories/Nso_Model.v
theories/Nso_Spec.v
theories/Nso_Props.v
theories/Nso_Props2.v
theories/Nso_Props3.v
theories/Src_Model.v
theories/Src_Props.v
theories/Src_Props2.v
theories/Heat_Model.v
theories/Heat_Props.v
theories/Heat_Props2.v
theories/Filter_Model.v
theories/Filter_Props.v
theories/Filter_Props2.v
theories/Grad_Model.v
theories/Grad_Spec.v
theories/Grad_Props.v
theories/Grad_Props2.v
theories/Grad_Props3.v
theories/Grad_Props4.v
theories/Grad_Props5.v
theories/Grad_Props6.v
theories/Grad_Props7.v
theories/Act_Model.v
theories/Act_Props.v
theories/Act_Props2.v
theories/Err_Model.v
theories/Err_Props.v
theories/Err_Props2.v
theories/Eig_Model.v
theories/Eig_Props.v
theories/Eig_Props2.v
theories/Eig_Props3.v
theories/Eig_Props4.v
theories/Eig_Props5.v
theories/Leg_Model.v
theories/Leg_Props.v
theories/Leg_Props2.v
theories/Leg_Props3.v
theories/Leg_Props4.v
theories/Nso_Props4.v
theories/SixDof_Model.v
theories/SixDof_Props.v
theories/SixDof_Props2.v
theories/WallOde_Model.v
theories/WallOde_Props.v
theories/WallOde_Props2.v
theories/WallOde_Props3.v
theories/Couple_Model.v
theories/Couple_Props.v
theories/Couple_Props2.v
theories/Couple_Props3.v
theories/Asm_Model.v
theories/Asm_Spec.v
theories/Asm_Props.v
theories/Asm_Props2.v
theories/Asm_Props3.v
theories/Species_Model.v
theories/Species_Props.v
theories/Species_Props2.v
theories/VofFlow_Model.v
theories/VofFlow_Props.v
theories/VofFlow_Props2.v
theories/Input_Model.v
theories/Input_Spec.v
theories/Input_Props.v
theories/Input_Props2.v
theories/Input_Props3.v
theories/GasNC_Model.v
theories/GasNC_Props.v
theories/GasNC_Props2.v
theories/GasNC_Props3.v
theories/Hyb_Model.v
theories/Hyb_Props.v
theories/Hyb_Props2.v
theories/Bal_Model.v
theories/Bal_Props.v
theories/Bal_Props2.v
theories/Input_Props4.v
theories/Input_Props5.v
theories/Scratch_Model.v
theories/Scratch_Props.v
theories/User_Model.v
theories/User_Props.v
theories/User_Props2.v
theories/User_Props3.v
theories/Mat_Model.v
theories/Mat_Props.v
theories/Mat_Props2.v
theories/Mono_Model.v
theories/Mono_Props.v
theories/FemStep_Model.v
theories/FemStep_Props.v
theories/QuadP2_Model.v
theories/QuadP2_Props.v
theories/QuadP2_Props2.v
theories/QuadP2_Props3.v
theories/QuadP2_Props4.v
