-Q theories Verif
theories/Base.v
theories/Flags_Model.v
theories/Flags_Spec.v
theories/Flags_Proofs.v
theories/Flags_Props.v
theories/Tok_Model.v
theories/Tok_Spec.v
theories/Tok_Proofs.v
theories/Tok_Props.v
theories/Str_Model.v
theories/Str_Spec.v
theories/Str_Proofs.v
theories/Str_Proofs2.v
theories/Str_Props.v
theories/BT_Model.v
theories/BT_Spec.v
theories/BT_Proofs.v
theories/BT_Proofs2.v
theories/BT_Proofs3.v
theories/BT_Proofs4.v
theories/BT_Proofs5.v
theories/BT_Props.v
theories/Isect_Model.v
theories/Isect_Proofs.v
theories/Isect_Props.v
theories/An_Model.v
theories/An_Spec.v
theories/An_Proofs.v
theories/An_Proofs2.v
theories/An_Props.v
theories/LK_Model.v
theories/LK_Spec.v
theories/LK_Proofs.v
theories/LK_Props.v
theories/OrdMap.v
theories/OLF_Model.v
theories/OLF_Spec.v
theories/OLF_Proofs.v
theories/OLF_Props.v
theories/HST_Model.v
theories/HST_Spec.v
theories/HST_Proofs.v
theories/HST_Props.v
theories/OLC_Model.v
theories/OLL_Model.v
theories/OLC_Spec.v
theories/OLC_Proofs.v
theories/OLC_Proofs2.v
theories/OLC_Proofs3.v
theories/OLC_Proofs4.v
theories/OLC_Proofs5.v
theories/OLC_Proofs6.v
theories/OLC_Proofs7.v
theories/OLC_Props.v
theories/OLL_Spec.v
theories/OLL_Proofs.v
theories/OLL_Proofs2.v
theories/OLL_Proofs3.v
theories/OLL_Props.v
theories/Harm_Model.v
theories/Harm_Spec.v
theories/Harm_Proofs.v
theories/Harm_Props.v
theories/CI_Model.v
theories/CI_Spec.v
theories/CI_Proofs.v
theories/CI_Proofs2.v
theories/CI_Proofs3.v
theories/CI_Proofs4.v
theories/CI_Props.v
theories/Sp_Model.v
theories/Sp_Spec.v
theories/Sp_Proofs.v
theories/Sp_Proofs2.v
theories/Sp_Proofs3.v
theories/Sp_Proofs4.v
theories/Sp_Props.v
theories/ATT_Model.v
theories/ATT_Spec.v
theories/ATT_Proofs.v
theories/ATT_Proofs2.v
theories/ATT_Props.v
theories/Xp_Model.v
theories/Xp_Spec.v
theories/Xp_Proofs.v
theories/Xp_Proofs2.v
theories/Xp_Props.v
theories/OLB_Spec.v
theories/OLB_Proofs.v
theories/OLB_Proofs2.v
theories/OLB_Props.v
theories/CT_Model.v
theories/CT_Spec.v
theories/CT_Proofs.v
theories/CT_Proofs2.v
theories/CT_Props.v
theories/Ru_Model.v
theories/Ru_Spec.v
theories/Ru_Proofs.v
theories/Ru_Proofs2.v
theories/Ru_Props.v
theories/Rc_Model.v
theories/Rc_Spec.v
theories/Rc_Proofs.v
theories/Rc_Proofs2.v
theories/Rc_Proofs3.v
theories/Rc_Props.v
theories/Lx_Model.v
theories/Lx_Spec.v
theories/Lx_Proofs.v
theories/Lx_Proofs2.v
theories/Lx_Proofs3.v
theories/Lx_Proofs4.v
theories/Lx_Proofs5.v
theories/Lx_Proofs6.v
theories/Lx_Proofs7.v
theories/Lx_Proofs8.v
theories/Lx_Proofs9.v
theories/Lx_Props.v
theories/Fe_Model.v
theories/Fe_Spec.v
theories/Fe_Proofs.v
theories/Fe_Proofs2.v
theories/Fe_Proofs3.v
theories/Fe_Props.v
theories/Sh_Spec.v
theories/Sh_Model.v
theories/Sh_Proofs.v
theories/Sh_Proofs2.v
theories/Sh_Proofs3.v
theories/Sh_Props.v
theories/Co_Spec.v
theories/Co_Model.v
theories/Co_Proofs.v
theories/Co_Proofs2.v
theories/Co_Proofs3.v
theories/Co_Proofs4.v
theories/Co_Props.v
theories/SF_Spec.v
theories/SF_Model.v
theories/SF_Proofs.v
theories/SF_Proofs2.v
theories/SF_Proofs3.v
theories/SF_Proofs4.v
theories/SF_Proofs5.v
theories/SF_Proofs6.v
theories/SF_Proofs7.v
theories/SF_Proofs8.v
theories/SF_Proofs9.v
theories/SF_Props.v
theories/SM_Model.v
theories/SM_Proofs.v
theories/SM_Proofs2.v
theories/SM_Proofs3.v
theories/SM_Proofs4.v
theories/SM_Proofs5.v
theories/SM_Proofs6.v
theories/SM_Proofs7.v
theories/SM_Proofs8.v
theories/SM_Props.v
theories/PL_Model.v
theories/PL_Spec.v
theories/PL_Proofs.v
theories/PL_Proofs2.v
theories/PL_Proofs3.v
theories/PL_Proofs4.v
theories/PL_Props.v
theories/HP_Model.v
theories/HP_Spec.v
theories/HP_Proofs.v
theories/HP_Proofs2.v
theories/HP_Proofs3.v
theories/HP_Proofs4.v
theories/HP_Proofs5.v
theories/HP_Proofs6.v
theories/HP_Proofs7.v
theories/HP_Proofs8.v
theories/HP_Props.v
theories/LS_Model.v
theories/LS_Spec.v
theories/LS_Proofs.v
theories/LS_Proofs2.v
theories/LS_Proofs3.v
theories/LS_Props.v
theories/PU_Spec.v
theories/PU_Model.v
theories/PU_Proofs.v
theories/PU_Proofs2.v
theories/PU_Proofs3.v
theories/PU_Proofs4.v
theories/PU_Proofs5.v
theories/PU_Proofs6.v
theories/PU_Proofs7.v
theories/PU_Props.v
theories/PM_Model.v
theories/PM_Spec.v
theories/PM_Proofs.v
theories/PM_Proofs2.v
theories/PM_Proofs3.v
theories/PM_Proofs4.v
theories/PM_Props.v
theories/Xr_Model.v
theories/Xr_Spec.v
theories/Xr_Proofs1.v
theories/Xr_Proofs2.v
theories/Xr_Proofs3.v
theories/Xr_Proofs4.v
theories/Xr_Proofs5.v
theories/Xr_Proofs6.v
theories/Xr_Proofs7.v
theories/Xr_Proofs8.v
theories/Xr_Proofs9.v
theories/Xr_Props.v
theories/CW_Model.v
theories/CW_Spec.v
theories/CW_Proofs.v
theories/CW_Proofs2.v
theories/CW_Proofs3.v
theories/CW_Props.v
theories/Cr_Spec.v
theories/Cr_Model.v
theories/Cr_Proofs.v
theories/Cr_Proofs2.v
theories/Cr_Proofs3.v
theories/Cr_Proofs4.v
theories/Cr_Props.v
theories/FH_Spec.v
theories/FH_Model.v
theories/FH_Proofs.v
theories/FH_Proofs2.v
theories/FH_Proofs3.v
theories/FH_Proofs4.v
theories/FH_Proofs5.v
theories/FH_Proofs6.v
theories/FH_Props.v
theories/RW_Spec.v
theories/RW_Model.v
theories/RW_Proofs.v
theories/RW_Props.v
theories/FL_Spec.v
theories/FL_Model.v
theories/FL_Proofs.v
theories/FL_Props.v
theories/S2_Spec.v
theories/S2_Model.v
theories/S2_Proofs.v
theories/S2_Proofs2.v
theories/S2_Props.v
theories/GT_Spec.v
theories/GT_Model.v
theories/GT_Proofs.v
theories/GT_Props.v
theories/PT_Spec.v
theories/PT_Model.v
theories/PT_Proofs.v
theories/PT_Props.v
theories/AR_Spec.v
theories/AR_Model.v
theories/AR_Proofs.v
theories/AR_Props.v
theories/GA_Spec.v
theories/GA_Model.v
theories/GA_Proofs.v
theories/GA_Props.v
theories/SU_Spec.v
theories/SU_Model.v
theories/SU_Proofs.v
theories/SU_Proofs2.v
theories/SU_Props.v
theories/EE_Spec.v
theories/EE_Model.v
theories/EE_Proofs.v
theories/EE_Proofs2.v
theories/EE_Proofs3.v
theories/EE_Props.v
theories/RP_Spec.v
theories/RP_Model.v
theories/RP_Proofs.v
theories/RP_Props.v
theories/CA_Spec.v
theories/CA_Model.v
theories/CA_Proofs.v
theories/CA_Props.v
theories/IF_Spec.v
theories/IF_Model.v
theories/IF_Proofs.v
theories/IF_Props.v
theories/IN_Spec.v
theories/IN_Model.v
theories/IN_Proofs.v
theories/IN_Props.v
theories/MD_Spec.v
theories/MD_Model.v
theories/MD_Proofs.v
theories/MD_Props.v
theories/SX_Spec.v
theories/SX_Model.v
theories/SX_Proofs.v
theories/SX_Props.v
theories/FO_Spec.v
theories/FO_Model.v
theories/FO_Props.v
theories/PK_Spec.v
theories/PK_Model.v
theories/PK_Proofs.v
theories/PK_Props.v
theories/DT_Spec.v
theories/DT_Model.v
theories/DT_Proofs.v
theories/DT_Props.v
