-Q theories Verif
theories/Accum.v
theories/Base.v
theories/BaseLemmas.v
theories/Bck_Model.v
theories/Bck_Proofs.v
theories/Bck_Props.v
theories/Bck_Props2.v
theories/Bck_Spec.v
theories/Beam_Link.v
theories/Beam_Model.v
theories/Beam_Proofs.v
theories/Beam_Proofs2.v
theories/Beam_Props.v
theories/Beam_Props2.v
theories/Beam_Spec.v
theories/Cfe_Model.v
theories/Cfe_Proofs.v
theories/Cfe_Proofs2.v
theories/Cfe_Proofs3.v
theories/Cfe_Proofs4.v
theories/Cfe_Proofs5.v
theories/Cfe_Proofs6.v
theories/Cfe_Props.v
theories/Cfe_Props2.v
theories/Cfe_Props3.v
theories/Cfe_Spec.v
theories/Cft_Model.v
theories/Cft_Props.v
theories/Cft_Props2.v
theories/Cft_Spec.v
theories/Cmp_Model.v
theories/Cmp_Props.v
theories/Cmp_Spec.v
theories/Cond_Model.v
theories/Cond_Proofs.v
theories/Cond_Proofs2.v
theories/Cond_Props.v
theories/Cond_Spec.v
theories/Cont_Model.v
theories/Cont_Proofs.v
theories/Cont_Props.v
theories/Cont_Spec.v
theories/Coor_Model.v
theories/Coor_Proofs.v
theories/Coor_Props.v
theories/Coor_Spec.v
theories/Cpl_Model.v
theories/Cpl_Proofs.v
theories/Cpl_Props.v
theories/Cpl_Props2.v
theories/Cpl_Props3.v
theories/Cpl_Spec.v
theories/Cplx_Model.v
theories/Cplx_Proofs.v
theories/Cplx_Props.v
theories/Cplx_Spec.v
theories/Disc_Model.v
theories/Disc_Proofs.v
theories/Disc_Props.v
theories/Disc_Spec.v
theories/Dof6_Model.v
theories/Dof6_Proofs.v
theories/Eig_Model.v
theories/Eig_Proofs.v
theories/Eig_Props.v
theories/Eig_Spec.v
theories/FEMOp_Model.v
theories/FEMOp_Proofs.v
theories/FEMOp_Props.v
theories/FEMOp_Spec.v
theories/Fda_Model.v
theories/Fda_Props.v
theories/Fda_Props2.v
theories/Fda_Props3.v
theories/Fda_Spec.v
theories/Fdf_Model.v
theories/Fdf_Proofs.v
theories/Fdf_Proofs2.v
theories/Fdf_Props.v
theories/Fdf_Props2.v
theories/Fdf_Spec.v
theories/Filt_Model.v
theories/Filt_Proofs.v
theories/Filt_Proofs2.v
theories/Filt_Props.v
theories/Filt_Spec.v
theories/Flui_Model.v
theories/Flui_Proofs.v
theories/Flui_Proofs2.v
theories/Flui_Proofs3.v
theories/Flui_Proofs4.v
theories/Flui_Proofs5.v
theories/Flui_Proofs6.v
theories/Flui_Props.v
theories/Flui_Spec.v
theories/Flut_Model.v
theories/Flut_Proofs.v
theories/Flut_Proofs2.v
theories/Flut_Proofs3.v
theories/Flut_Proofs4.v
theories/Flut_Props.v
theories/Flut_Spec.v
theories/Func_Model.v
theories/Func_Proofs.v
theories/Func_Props.v
theories/Func_Spec.v
theories/Geom_Model.v
theories/Geom_Proofs.v
theories/Geom_Proofs2.v
theories/Geom_Proofs3.v
theories/Geom_Props.v
theories/Geom_Spec.v
theories/Heat_Model.v
theories/Heat_Proofs.v
theories/Heat_Proofs2.v
theories/Heat_Proofs3.v
theories/Heat_Props.v
theories/Heat_Spec.v
theories/Hist_Model.v
theories/Hist_Proofs.v
theories/Hist_Props.v
theories/Hist_Spec.v
theories/Hom_Model.v
theories/Hom_Props.v
theories/Hom_Spec.v
theories/Intp_Model.v
theories/Intp_Props.v
theories/Isec_Model.v
theories/Isec_Proofs.v
theories/Isec_Proofs2.v
theories/Isec_Proofs3.v
theories/Isec_Proofs4.v
theories/Isec_Proofs5.v
theories/Isec_Props.v
theories/Isec_Props2.v
theories/Isec_Spec.v
theories/Lap_Model.v
theories/Lap_Proofs.v
theories/Lap_Props.v
theories/Lap_Props2.v
theories/Lap_Spec.v
theories/Lei_Model.v
theories/Lei_Proofs.v
theories/Lei_Props.v
theories/Lei_Spec.v
theories/Lna_Model.v
theories/Lna_Proofs.v
theories/Lna_Proofs2.v
theories/Lna_Props.v
theories/Lna_Props2.v
theories/Lna_Props3.v
theories/Lna_Spec.v
theories/Load_Model.v
theories/Load_Proofs.v
theories/Load_Proofs2.v
theories/Load_Proofs3.v
theories/Load_Props.v
theories/Load_Props2.v
theories/Load_Spec.v
theories/Lri_Model.v
theories/Lri_Props.v
theories/Lri_Spec.v
theories/Lse_Model.v
theories/Lse_Proofs.v
theories/Lse_Proofs2.v
theories/Lse_Proofs3.v
theories/Lse_Props.v
theories/Lse_Props2.v
theories/Lse_Props3.v
theories/Lse_Spec.v
theories/Mat_Model.v
theories/Mat_Proofs.v
theories/Mat_Proofs2.v
theories/Mat_Proofs3.v
theories/Mat_Proofs4.v
theories/Mat_Proofs5.v
theories/Mat_Proofs6.v
theories/Mat_Props.v
theories/Mat_Spec.v
theories/Mff_Model.v
theories/Mff_Proofs.v
theories/Mff_Props.v
theories/Mff_Spec.v
theories/Mph_Model.v
theories/Mph_Proofs.v
theories/Mph_Proofs2.v
theories/Mph_Proofs3.v
theories/Mph_Props.v
theories/Mph_Props2.v
theories/Mph_Spec.v
theories/Nast_Model.v
theories/Nast_Proofs.v
theories/Nast_Proofs2.v
theories/Nast_Props.v
theories/Nast_Spec.v
theories/Njc_Model.v
theories/Njc_Props.v
theories/Njc_Spec.v
theories/Opt_Model.v
theories/Opt_Proofs.v
theories/Opt_Proofs2.v
theories/Opt_Props.v
theories/Opt_Spec.v
theories/Plate_Model.v
theories/Plate_Proofs.v
theories/Plate_Proofs2.v
theories/Plate_Proofs3.v
theories/Plate_Proofs4.v
theories/Plate_Proofs5.v
theories/Plate_Props.v
theories/Plate_Props2.v
theories/Plate_Spec.v
theories/Prs_Model.v
theories/Prs_Proofs.v
theories/Prs_Props.v
theories/Prs_Props2.v
theories/Prs_Spec.v
theories/RBool.v
theories/Rec_Model.v
theories/Rec_Proofs.v
theories/Rec_Proofs2.v
theories/Rec_Proofs3.v
theories/Rec_Props.v
theories/Rec_Props2.v
theories/Rec_Spec.v
theories/Refi_Model.v
theories/Refi_Proofs.v
theories/Refi_Proofs2.v
theories/Refi_Proofs3.v
theories/Refi_Proofs4.v
theories/Refi_Proofs5.v
theories/Refi_Proofs6.v
theories/Refi_Proofs7.v
theories/Refi_Props.v
theories/Refi_Spec.v
theories/Rom_Model.v
theories/Rom_Proofs.v
theories/Rom_Props.v
theories/Rom_Spec.v
theories/Sect_Model.v
theories/Sect_Proofs.v
theories/Sect_Proofs2.v
theories/Sect_Proofs3.v
theories/Sect_Props.v
theories/Sect_Props2.v
theories/Sect_Spec.v
theories/Sens_Model.v
theories/Sens_Proofs.v
theories/Sens_Proofs2.v
theories/Sens_Props.v
theories/Sens_Props2.v
theories/Sens_Spec.v
theories/Sfd_Model.v
theories/Sfd_Proofs.v
theories/Sfd_Props.v
theories/Sfd_Spec.v
theories/Shk_Model.v
theories/Shk_Props.v
theories/Shk_Spec.v
theories/Solid_Model.v
theories/Solid_Proofs.v
theories/Solid_Proofs2.v
theories/Solid_Proofs3.v
theories/Solid_Props.v
theories/Solid_Spec.v
theories/Stab_Model.v
theories/Stab_Proofs.v
theories/Stab_Props.v
theories/Stab_Spec.v
theories/Ste_Model.v
theories/Ste_Proofs.v
theories/Ste_Props.v
theories/Ste_Spec.v
theories/Stre_Model.v
theories/Stre_Proofs.v
theories/Stre_Proofs2.v
theories/Stre_Proofs3.v
theories/Stre_Proofs4.v
theories/Stre_Props.v
theories/Stre_Spec.v
theories/Tad_Model.v
theories/Tad_Proofs.v
theories/Tad_Props.v
theories/Tad_Spec.v
theories/Trans_Model.v
theories/Trans_Proofs.v
theories/Trans_Props.v
theories/Trans_Spec.v
theories/Ufl_Model.v
theories/Ufl_Proofs.v
theories/Ufl_Proofs2.v
theories/Ufl_Proofs3.v
theories/Ufl_Proofs4.v
theories/Ufl_Props.v
theories/Ufl_Props2.v
theories/Ufl_Props3.v
theories/Ufl_Spec.v
theories/Utility_Model.v
theories/Utility_Proofs.v
theories/Utility_Props.v
theories/Utility_Spec.v
theories/Vdo_Model.v
theories/Vdo_Props.v
theories/Vdo_Spec.v
theories/Vds_Model.v
theories/Vds_Proofs.v
theories/Vds_Props.v
theories/Vds_Spec.v
