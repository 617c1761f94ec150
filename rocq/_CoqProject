-Q theories Verif

theories/W_word.v
theories/SpecW.v
theories/W_base.v
theories/W_dot_model.v
theories/W_dot_proof.v
theories/W_dot2_proof.v
theories/W_split_proof.v
theories/P_dot.v
theories/W_util_model.v
theories/W_util_proof.v
theories/P_util.v
theories/W_crt_model.v
theories/W_crt_proof.v
theories/W_multimod_proof.v
theories/P_crt.v
theories/A_base.v
theories/SpecA.v
theories/A_nullspace_model.v
theories/A_nullspace_proof.v
theories/A_nullspace2_proof.v
theories/P_nullspace.v
theories/A_matpoly_model.v
theories/A_matpoly_proof.v
theories/P_matpoly.v
theories/A_mbasis_model.v
theories/A_mbasis_abs.v
theories/A_mbasis_proof.v
theories/P_approx.v
theories/A_ring.v
theories/A_mul_model.v
theories/A_mul_proof.v
theories/A_mul2_proof.v
theories/P_mul.v
theories/A_pmbasis_model.v
theories/A_pmbasis_proof.v
theories/P_pmbasis.v
theories/SpecForms.v
theories/A_forms_model.v
theories/A_forms_proof.v
theories/A_forms2_proof.v
theories/A_reduced_proof.v
theories/P_forms.v
theories/A_dixon_model.v
theories/A_dixon_proof.v
theories/P_dixon.v
theories/A_detdeg_proof.v
theories/A_verif_model.v
theories/A_verif_proof.v
theories/A_frac_proof.v
theories/P_verif.v
theories/A_kernel_model.v
theories/A_kernel_abs.v
theories/A_kernel_proof.v
theories/P_kernel.v
theories/SpecKernel.v
theories/A_pmbasis_deg_proof.v
theories/A_zls_abs.v
theories/A_zls_model.v
theories/A_zls_proof.v
theories/A_zls2_proof.v
theories/P_zls.v
theories/A_rot_model.v
theories/A_pluq_model.v
theories/SpecLU.v
theories/A_rot_proof.v
theories/A_pluq_proof.v
theories/P_pluq.v
theories/A_wpopov_model.v
theories/SpecWP.v
theories/A_rowops_proof.v
theories/A_wpopov_proof.v
theories/A_wpopov2_proof.v
theories/P_wpopov.v
theories/SpecHermite.v
theories/A_hermite_model.v
theories/A_hermite_ops_proof.v
theories/A_uref_proof.v
theories/A_uref2_proof.v
theories/A_uref3_proof.v
theories/A_hnf_proof.v
theories/A_kb_key.v
theories/A_kb_proof.v
theories/P_hermite.v
theories/A_det_model.v
theories/A_det_proof.v
theories/P_det.v
theories/A_matgcd_model.v
theories/A_matgcd_proof.v
theories/P_matgcd.v
theories/N_ring.v
theories/N_poly_model.v
theories/N_series_proof.v
theories/N_shift_proof.v
theories/P_npoly.v
theories/N_mid_model.v
theories/N_mid_proof.v
theories/N_midlong_model.v
theories/P_nmid.v
theories/N_crt_model.v
theories/N_crt_proof.v
theories/N_crt2_proof.v
theories/N_crt3_proof.v
theories/N_multi_model.v
theories/N_multi_proof.v
theories/N_sqfree_proof.v
theories/P_ncrt.v
theories/N_geo_model.v
theories/N_geo_proof.v
theories/N_geo2_proof.v
theories/N_geo3_proof.v
theories/N_ord_model.v
theories/P_ngeo.v
theories/P_nord.v
theories/N_mfft_model.v
theories/N_mfft_proof.v
theories/P_nfft.v
theories/N_pmat_model.v
theories/N_trs_model.v
theories/N_trs_proof.v
theories/P_ntrs.v
theories/N_util_model.v
theories/N_util_proof.v
theories/P_nutil.v
theories/P_nconv.v
theories/N_ring2.v
theories/N_wak_model.v
theories/P_nwak.v
theories/N_eval_model.v
theories/N_eval_proof.v
theories/P_neval.v
theories/N_mmfft_model.v
theories/N_mmfft_proof.v
theories/P_nmmfft.v
theories/N_mm3_model.v
theories/N_mm3_proof.v
theories/P_nmm3.v
theories/N_mm_model.v
theories/P_nmm.v
theories/N_mmfft_core.v
theories/N_mm3_crt.v
theories/N_mp_model.v
theories/P_nmp.v
theories/N_mp3_model.v
theories/P_nmp3.v
theories/N_inv_model.v
theories/N_inv_proof.v
theories/P_ninv.v
theories/P_ninv2.v
theories/N_lmul_model.v
theories/N_lmul_proof.v
theories/P_nlmul.v
theories/N_solve_model.v
theories/N_solve_proof.v
theories/P_nsolve.v
theories/N_div_model.v
theories/N_div_proof.v
theories/P_ndiv.v
theories/N_forms_model.v
theories/N_forms_proof.v
theories/P_nforms.v
theories/SpecApp.v
theories/N_appbas_model.v
theories/N_appbas_proof.v
theories/N_popov_proof.v
theories/P_nappbas.v
theories/N_isapp_model.v
theories/N_isapp_proof.v
theories/P_nisapp.v
theories/SpecKer.v
theories/N_mb_model.v
theories/N_mb_proof.v
theories/N_mb2_proof.v
theories/N_kerex_proof.v
theories/P_nmb.v
theories/N_pmb_model.v
theories/N_pmb_proof.v
theories/P_npmb.v
theories/N_ker_model.v
theories/N_ker_proof.v
theories/P_nker.v
theories/N_zls_proof.v
theories/N_zls2_proof.v
theories/P_nzls.v
theories/N_det_model.v
theories/N_det_proof.v
theories/N_det2_proof.v
theories/P_ndet.v
theories/N_lin_model.v
theories/N_lin_proof.v
theories/P_nlin.v
theories/N_str_model.v
theories/P_nstr.v
theories/N_circ_model.v
theories/P_ncirc.v
theories/N_tlike_model.v
theories/P_ntlike.v
theories/N_hlike_model.v
theories/P_nhlike.v
