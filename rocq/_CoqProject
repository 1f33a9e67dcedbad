-Q theories Verif
theories/Ops.v
theories/Exact.v
theories/ListOps.v
theories/Spec.v
theories/ZmodTac.v
theories/FieldTac.v
theories/LinAlg.v
theories/Model_KF.v
theories/Spec_KF.v
theories/Proof_KF.v
theories/Prop_KF.v
theories/Spec_KF_exact.v
theories/Proof_KF_exact.v
theories/Prop_KF_exact.v
theories/Proof_KF_seq.v
theories/Proof_KF_coords.v
theories/Prop_KF_fusion.v
theories/Spec_RTS.v
theories/Proof_RTS.v
theories/Proof_RTS_exact.v
theories/Prop_RTS.v
theories/Model_Info.v
theories/Model_Sqrt.v
theories/Model_EKF.v
theories/Spec_Lin.v
theories/Prop_EKF.v
theories/Cholesky.v
theories/Prop_Info.v
theories/Prop_Info_ex.v
theories/Prop_Sqrt.v
theories/Prop_Sqrt_ex.v
theories/Prop_Lik.v
theories/Prop_Ctor.v
theories/Model_Stats.v
theories/Model_Common.v
theories/Proof_Common.v
theories/Prop_Stats.v
theories/Prop_Kin.v
theories/Proof_Disc.v
theories/Proof_Disc2.v
theories/Prop_Disc.v
theories/Prop_Common_ex.v
theories/Prop_VanLoan.v
theories/Model_Saver.v
theories/Prop_Saver.v
theories/Model_UKF.v
theories/Spec_UKF_run.v
theories/Proof_UKF.v
theories/Prop_UKF.v
theories/Proof_UKF_lin.v
theories/Prop_UKF_run.v
theories/Proof_Moments.v
theories/Prop_UKF_psd.v
theories/Model_CKF.v
theories/Model_EnKF.v
theories/Model_MM.v
theories/Spec_EnKF.v
theories/Prop_EnKF.v
theories/Prop_EnKF_ex.v
theories/Proof_EnKF.v
theories/Spec_CKF.v
theories/Prop_CKF.v
theories/Prop_CKF_ex.v
theories/Proof_CKF.v
theories/Proof_CKF_get.v
theories/Prop_UKF_rts.v
theories/Prop_UKF_ex.v
theories/Proof_UKF_get.v
theories/Spec_UKF.v
theories/RealOps.v
theories/Prop_Gauss.v
theories/Model_GH.v
theories/Model_GHDiv.v
theories/Model_LSQ.v
theories/Spec_GH.v
theories/Proof_GH.v
theories/Prop_GH.v
theories/Prop_VRF.v
theories/Prop_LSQ.v
theories/Prop_FMF.v
theories/Spec_MM.v
theories/Proof_MM.v
theories/Prop_MM.v
theories/Prop_MMAE.v
theories/Prop_NoSwitch.v
theories/Prop_NoSwitch2.v
theories/Prop_NoSwitch3.v
theories/Prop_MM_ex.v
theories/Model_DB.v
theories/Spec_DB.v
theories/Proof_DB.v
theories/Prop_DB.v
theories/Prop_DB_ex.v
theories/Model_Resample.v
theories/Prop_Resample.v
theories/Prop_Resample2.v
theories/Prop_Resample_ex.v
theories/Model_FLS.v
theories/Spec_FLS.v
theories/Prop_FLS.v
theories/Prop_FLS_exact.v
theories/Prop_FLS_ex.v
theories/Model_HInf.v
theories/Prop_HInf.v
theories/Prop_HInf_exact.v
theories/Spec_KF_order.v
theories/Proof_KF_order.v
theories/Proof_KF_comb.v
theories/Prop_KF_order.v
theories/Prop_Stats2.v
theories/Prop_KF_resid.v
theories/Prop_KF_resid_ex.v
theories/Prop_BB.v
theories/Prop_EKF2.v
theories/Prop_EKF_exact.v
theories/Prop_Lik2.v
theories/Model_Dyn.v
theories/Prop_Dyn.v
theories/Prop_Disc_R.v
theories/Model_Helpers.v
theories/Prop_Helpers.v
theories/Prop_UKF_batch.v
theories/Model_Ode.v
theories/Prop_Ode.v
theories/Model_Ellipse.v
theories/Prop_Ellipse.v
theories/Prop_Resample3.v
theories/Proof_Stab.v
theories/Prop_Stab.v
theories/Prop_GHDiv.v
theories/Spec_Stat.v
theories/Prop_Stat.v
theories/Model_Refs.v
theories/Spec_Refs.v
theories/Proof_Refs.v
theories/Prop_Refs.v
theories/Proof_Float.v
theories/Prop_Float.v
theories/Proof_Float2.v
theories/Prop_Float2.v
theories/Model_Plot.v
theories/Prop_Plot.v
theories/Spec_KF_forget.v
theories/Proof_KF_forget.v
theories/Prop_KF_forget.v
theories/Model_Dtype.v
theories/Prop_Dtype.v
theories/RealField.v
theories/Spec_Joint.v
theories/Prop_Joint.v
theories/Spec_Poly.v
theories/Prop_Poly.v
theories/Spec_Smooth.v
theories/Prop_Smooth.v
theories/Prop_Fresh.v
theories/Prop_ModelPost.v
theories/Prop_NEES.v
theories/Model_Repr.v
theories/Prop_Repr.v
