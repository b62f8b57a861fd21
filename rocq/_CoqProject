-Q theories Verif
theories/Base.v
theories/FSum.v
theories/Pade_Model.v
theories/Pade_Spec.v
theories/Pade_Proofs.v
theories/PadeAvg_Model.v
theories/PadeAvg_Spec.v
theories/PadeKind_Proofs.v
theories/PadeAvg_Proofs.v
theories/PadeAvg_Refute.v
theories/Pade_Props.v
theories/PadeAvg_Props.v
theories/CBase.v
theories/Herm_Model.v
theories/Herm_Spec.v
theories/Herm_Proofs.v
theories/Herm_Proofs2.v
theories/Herm_Gauss.v
theories/Herm_Refute.v
theories/HermEval_Model.v
theories/HermEval_Proofs.v
theories/Herm_Props.v
theories/LinPred_Model.v
theories/LinPred_Proofs.v
theories/LinPred_Burg.v
theories/LinPred_Props.v
theories/CExp.v
theories/Stat_Model.v
theories/Stat_Proofs.v
theories/Stat_Props.v
theories/Linalg_Model.v
theories/Linalg_Proofs.v
theories/Linalg_Props.v
theories/Mat.v
theories/ExpPoly.v
theories/Pole_Model.v
theories/Pole_Proofs.v
theories/Pole_Proofs2.v
theories/Pole_Time.v
theories/Pole_Props.v
theories/Backend.v
theories/Cauchy.v
theories/Pole_Fit.v
theories/Density_Model.v
theories/Density_Proofs.v
theories/PoleFit_Props.v
theories/Density_Props.v
theories/Matrix_Model.v
theories/Matrix_Proofs.v
theories/Matrix_Time.v
theories/Matrix_Props.v
theories/Cpa_Model.v
theories/Cpa_Proofs.v
theories/MatAlg.v
theories/Beb_Model.v
theories/Beb_Core.v
theories/Beb_Proofs.v
theories/Beb_Restrict.v
theories/Cpa_Props.v
theories/Beb_Props.v
theories/Fourier_Model.v
theories/Fourier_Dft.v
theories/Fourier_Filon.v
theories/Fourier_Lin.v
theories/Fourier_Quad.v
theories/Fourier_Series.v
theories/Fourier_Props.v
theories/FourierMom_Model.v
theories/FourierMom_Proofs.v
theories/FourierMom_Main.v
theories/FourierMom_Iv.v
theories/FourierMom_Props.v
theories/FourierPade_Model.v
theories/FourierPade_Ser.v
theories/FourierPade_Proofs.v
theories/FourierPade_Main.v
theories/FourierPade_Props.v
theories/NPoles_Model.v
theories/NPoles_Proofs.v
theories/NPoles_Props.v
theories/Rat_Model.v
theories/Rat_Proofs.v
theories/Rat_Props.v
theories/Lattice_Model.v
theories/CSqrt.v
theories/Bethe_Proofs.v
theories/Bethe_Main.v
theories/LatDos_Proofs.v
theories/LatBox_Proofs.v
theories/Dimer_Spec.v
theories/Dimer_Proofs.v
theories/Bethe_Props.v
theories/Pole_Spec.v
theories/Pole_Bridge.v
theories/LatMom_Model.v
theories/LatMom_Spec.v
theories/LatMom_Walks.v
theories/LatMom_Proofs.v
theories/LatMom_Digits.v
theories/LatMom_Int.v
theories/LatMom_Props.v
theories/LatTime_Proofs.v
theories/LatTime_Props.v
theories/LatDer_Model.v
theories/LatDer_Spec.v
theories/LatDer_Proofs.v
theories/LatDer_Dos.v
theories/LatDer_Norm.v
theories/LatDer_Props.v
theories/LatEll_Model.v
theories/LatEll_Proofs.v
theories/LatSym_Proofs.v
theories/LatEll_Dos.v
theories/LatEll_Props.v
theories/LatInt_Spec.v
theories/LatInt_Proofs.v
theories/LatInt_Hilbert.v
theories/LatInt_Real.v
theories/LatInt_Fubini.v
theories/LatInt_Square.v
theories/LatInt_Legendre.v
theories/LatInt_Local.v
theories/LatInt_Props.v
theories/PPade_Lin.v
theories/PPade_Rank.v
theories/PPade_Rat.v
theories/PPade_Spec.v
theories/PPade_Model.v
theories/PPade_Proofs.v
theories/PPade_Cont.v
theories/PPade_Main.v
theories/FTA.v
theories/Schur.v
theories/PPade_Sat.v
theories/PPade_Refute.v
theories/PPade_Props.v
theories/LatMp_Model.v
theories/LatMp_Proofs.v
theories/LatMp_Sc.v
theories/LatMp_Stress.v
theories/LatMp_Pi.v
theories/LatMp_Props.v
theories/Matsu_Lim.v
theories/Matsu_Ser.v
theories/Matsu_Sum.v
theories/Matsu_Main.v
theories/Matsu_Props.v
theories/OldDens_Model.v
theories/OldDens_Proofs.v
theories/OldDens_Props.v
theories/Spectral.v
theories/Spectral_Props.v
theories/PadeFreq_Tanh.v
theories/PadeFreq_Model.v
theories/PadeFreq_Eig.v
theories/PadeFreq_Proofs.v
theories/PadeFreq_Main.v
theories/PadeFreq_Dens.v
theories/PadeFreq_Props.v
theories/CAnal.v
theories/CHol.v
theories/CEll.v
theories/LatBz_Spec.v
theories/LatRect_Proofs.v
theories/LatRect_Main.v
theories/LatBz_Props.v
theories/CHolo.v
theories/LatTri_Proofs.v
theories/LatTri_Main.v
theories/LatTri_Derived.v
theories/CTheta.v
theories/LatBcc_Proofs.v
theories/LatBcc_Main.v
theories/CFub.v
theories/CTheta2.v
theories/LatSc_Red.v
theories/LatSc_Proofs.v
theories/LatSc_L.v
theories/LatSc_Y.v
theories/LatSc_Main.v
theories/LatFcc_Mom.v
theories/LatFcc_Red.v
theories/LatFcc_Y.v
theories/LatFcc_Main.v
theories/LatCut_Spec.v
theories/LatCut_Proofs.v
theories/LatSpf_Spec.v
theories/LatSpf_Proofs.v
theories/LatSpf_Tri.v
theories/LatSpf_Sc.v
theories/LatSpf_Fcc.v
theories/LatSpf_Der.v
theories/LatSpf_Props.v
theories/LatRdos_Model.v
theories/LatSpf_Rect.v
theories/LatSpf_Edge.v
theories/LatHil_Spec.v
theories/LatHil_Poisson.v
theories/LatHil_Stieltjes.v
theories/LatHil_Main.v
theories/LatHil_Mean.v
theories/LatHil_Band.v
theories/LatHil_Avg.v
theories/LatHil_Lat.v
theories/LatHil_Inst.v
theories/LatHil_Der.v
theories/LatHil_Multi.v
theories/LatHil_Cor.v
theories/LatHil_Props.v
theories/LatMm_Spec.v
theories/LatMm_Trace.v
theories/LatMm_Walk.v
theories/LatMm_Inst.v
theories/LatMm_Chain.v
theories/LatMm_Props.v
theories/Masked_Spec.v
theories/Masked_Model.v
theories/Masked_Proofs.v
theories/Masked_Path.v
theories/Masked_Props.v
theories/PadeMod_Spec.v
theories/PadeMod_Model.v
theories/PadeMod_Proofs.v
theories/PadeMod_Props.v
theories/PadeFull_Spec.v
theories/PadeFull_Model.v
theories/PadeFull_Proofs.v
theories/PadeFull_Props.v
theories/UDec_Spec.v
theories/UDec_Model.v
theories/UDec_Proofs.v
theories/UDec_Props.v
theories/PPade_Basis.v
theories/PResid_Spec.v
theories/PResid_Proofs.v
theories/PResid_Props.v
theories/FourierPade_Spur.v
theories/OrthCompl_Props.v
theories/ZeroT_Model.v
theories/ZeroT_Proofs.v
theories/ZeroT_Props.v
theories/FourierMom_Width.v
theories/PadeHV_Spec.v
theories/PadeHV_Proofs.v
theories/PadeHV_Props.v
theories/BebCpa_Proofs.v
theories/BebCpa_Props.v
theories/CpaCausal_Spec.v
theories/CpaCausal_Proofs.v
theories/CpaCausal_Props.v
theories/BebCausal_Proofs.v
theories/BebCausal_Props.v
theories/CpaMulti_Proofs.v
theories/CpaMulti_Props.v
theories/BebMedium_Proofs.v
theories/BebMedium_Props.v
theories/BebDens_Proofs.v
theories/BebDens_Props.v
theories/NPolesCols_Props.v
theories/LatEdge_Props.v
theories/BebStrict_Props.v
