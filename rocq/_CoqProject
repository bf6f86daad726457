-Q theories Verif
theories/LinAlg.v
theories/Dyn_Model.v
theories/Dyn_Spec.v
theories/Dyn_Proofs.v
theories/Dyn_Ex.v
theories/Dyn_Props.v
theories/Con_Model.v
theories/Con_Spec.v
theories/Con_Proofs.v
theories/Con_Ex.v
theories/Con_Props.v
theories/Task_Model.v
theories/Task_Spec.v
theories/Task_Proofs.v
theories/Task_Ex.v
theories/Task_Props.v
theories/DMat.v
theories/Cone_Model.v
theories/Cone_Spec.v
theories/Cone_Proofs.v
theories/Cone_Ex.v
theories/Cone_Props.v
theories/DMatL.v
theories/QP_Model.v
theories/QP_Spec.v
theories/QP_Proofs.v
theories/QP_Loop.v
theories/QP_Ex.v
theories/QP_Props.v
theories/Geo_Model.v
theories/Geo_Spec.v
theories/Geo_Proofs.v
theories/Geo_Props.v
theories/Redis_Model.v
theories/Redis_Spec.v
theories/Redis_Proofs.v
theories/Redis_Dyn.v
theories/Redis_Ex.v
theories/Redis_Props.v
theories/HQP_Model.v
theories/HQP_Spec.v
theories/HQP_Proofs.v
theories/HQP_Thm.v
theories/HQP_Ex.v
theories/HQP_Props.v
theories/QPW_Model.v
theories/QPW_Spec.v
theories/QPW_Proofs.v
theories/QPW_Props.v
theories/Spline_Model.v
theories/Spline_Spec.v
theories/Spline_Proofs.v
theories/Spline_Props.v
theories/Rot_Model.v
theories/Rot_Spec.v
theories/Rot_Proofs.v
theories/Rot_Thm.v
theories/Rot_Props.v
theories/Filter_Model.v
theories/Filter_Spec.v
theories/Filter_Proofs.v
theories/Filter_Props.v
theories/Inr_Model.v
theories/Inr_Spec.v
theories/Inr_Proofs.v
theories/Inr_Tree.v
theories/Inr_Props.v
theories/Tree_Model.v
theories/Tree_Spec.v
theories/Tree_Proofs.v
theories/Tree_Thm.v
theories/Tree_Init.v
theories/Tree_More.v
theories/Tree_Ex.v
theories/Tree_Props.v
theories/Red_Model.v
theories/Red_Spec.v
theories/Red_Proofs.v
theories/Red_Props.v
theories/RedM_Model.v
theories/RedM_Spec.v
theories/RedM_Proofs.v
theories/RedM_Props.v
theories/PD_Model.v
theories/PD_Spec.v
theories/PD_Proofs.v
theories/PD_Props.v
theories/Thr_Model.v
theories/Thr_Spec.v
theories/Thr_Proofs.v
theories/Thr_Ex.v
theories/Thr_Props.v
theories/Kin_Model.v
theories/Kin_Spec.v
theories/Kin_Proofs.v
theories/Kin_Ex.v
theories/Kin_Props.v
theories/Copy_Model.v
theories/Copy_Props.v
theories/RedR_Model.v
theories/RedR_Spec.v
theories/RedR_Proofs.v
theories/RedR_Props.v
theories/LQP_Model.v
theories/LQP_Spec.v
theories/LQP_Proofs.v
theories/LQP_Thm.v
theories/LQP_Props.v
theories/LQP_Ex.v
theories/LQP_Run.v
theories/LQP_Props2.v
theories/Jacc_Model.v
theories/Jacc_Spec.v
theories/Jacc_Proofs.v
theories/Jacc_Thm.v
theories/Jacc_Run.v
theories/Jacc_Ex.v
theories/Jacc_NC.v
theories/Jacc_Props.v
theories/Jacc_NCProps.v
theories/RTq_Model.v
theories/RTq_Spec.v
theories/RTq_Proofs.v
theories/RTq_Loop.v
theories/RTq_NC.v
theories/RTq_Ex.v
theories/RTq_NCEx.v
theories/RTq_Props.v
theories/RTq_NCProps.v
theories/HQP_First.v
theories/RTS_Acc.v
theories/RTS_Model.v
theories/RTS_NC.v
theories/RTS_Loop.v
theories/RTS_Full.v
theories/RTS_Spec.v
theories/RTS_Proofs.v
theories/RTS_Props.v
theories/RTS_Ex.v
theories/RTS_Undef.v
theories/LNC_Model.v
theories/LNC_Spec.v
theories/LNC_Proofs.v
theories/LNC_Thm.v
theories/LNC_Props.v
theories/LNC_Ex.v
theories/LNC_Props2.v
theories/RedC_Model.v
theories/RedC_Props.v
theories/Brg_Model.v
theories/Brg_Spec.v
theories/Brg_Proofs.v
theories/Brg_Ex.v
theories/Brg_Props.v
theories/Chg_Model.v
theories/Chg_Spec.v
theories/Chg_Proofs.v
theories/Chg_Props.v
theories/Vmd_Model.v
theories/Vmd_Spec.v
theories/Vmd_Proofs.v
theories/Vmd_Props.v
theories/Bin_Model.v
theories/Bin_Spec.v
theories/Bin_Props.v
theories/CCo_Model.v
theories/CCo_Spec.v
theories/CCo_Props.v
theories/Cod_Model.v
theories/Cod_Spec.v
theories/Cod_Proofs.v
theories/Cod_Cond.v
theories/Cod_Exist.v
theories/Cod_Props.v
theories/Llt_Model.v
theories/Llt_Spec.v
theories/Llt_Proofs.v
theories/Llt_Props.v
theories/Quat_Model.v
theories/Quat_Spec.v
theories/Quat_Proofs.v
theories/Quat_Props.v
theories/QPO_Model.v
theories/QPO_Props.v
theories/HQS_Model.v
theories/HQS_Spec.v
theories/HQS_Props.v
theories/OSQ_Model.v
theories/OSQ_Spec.v
theories/OSQ_Proofs.v
theories/OSQ_Props.v
theories/Inr_Adj.v
theories/Tree_Upd.v
theories/Tree_Six.v
theories/RedC_Feet.v
theories/Task_Custom.v
theories/Task_AddLink.v
