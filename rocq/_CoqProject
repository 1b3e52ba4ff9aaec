-Q theories Verif
theories/Analysis_Model.v
theories/Analysis_Proofs.v
theories/Analysis_Props.v
theories/Analysis_Spec.v
theories/BPEst_Model.v
theories/BPEst_Proofs.v
theories/BPEst_Props.v
theories/BPEst_Spec.v
theories/BackProp_Model.v
theories/BackProp_Proofs.v
theories/BackProp_Props.v
theories/BackProp_Spec.v
theories/Balls_Model.v
theories/Balls_Proofs.v
theories/Balls_Props.v
theories/Balls_Spec.v
theories/Base.v
theories/BaseFacts.v
theories/Blocks_Model.v
theories/Blocks_Proofs.v
theories/Blocks_Spec.v
theories/BoseFermi_Matrix.v
theories/BoseFermi_Model.v
theories/BoseFermi_Proofs.v
theories/BoseFermi_Props.v
theories/BoseFermi_Spec.v
theories/Buffer_Model.v
theories/Buffer_Proofs.v
theories/Buffer_Props.v
theories/Buffer_Spec.v
theories/CI_Model.v
theories/CI_Proofs.v
theories/CI_Props.v
theories/ChemPot_Model.v
theories/ChemPot_Proofs.v
theories/ChemPot_Props.v
theories/ChemPot_Spec.v
theories/Chol_Model.v
theories/Chol_Proofs.v
theories/Chol_Props.v
theories/Chol_Spec.v
theories/CombMPI_Proofs.v
theories/Comb_Model.v
theories/Comb_Proofs.v
theories/Comb_Props.v
theories/Comb_Spec.v
theories/Cplx.v
theories/CplxFacts.v
theories/Driver_Model.v
theories/Driver_Proofs.v
theories/Driver_Props.v
theories/Driver_Spec.v
theories/EktIpea_Model.v
theories/EktIpea_Props.v
theories/EktIpea_Spec.v
theories/Ekt_Model.v
theories/Ekt_Proofs.v
theories/Ekt_Props.v
theories/Ekt_Spec.v
theories/EstName_Model.v
theories/EstName_Proofs.v
theories/Fcidump_Model.v
theories/Fcidump_Proofs.v
theories/Fcidump_Props.v
theories/Fcidump_Spec.v
theories/FieldConfig_Model.v
theories/FieldConfig_Proofs.v
theories/FieldConfig_Spec.v
theories/Files_Props.v
theories/Fock_Proofs.v
theories/Fock_Spec.v
theories/Freeze_Model.v
theories/Freeze_Proofs.v
theories/Freeze_Props.v
theories/Freeze_Spec.v
theories/H5Names_Model.v
theories/H5Names_Proofs.v
theories/HHEnergy_Model.v
theories/HHEnergy_Proofs.v
theories/HHEnergy_Props.v
theories/HHEnergy_Spec.v
theories/HalfRot_Model.v
theories/HalfRot_Proofs.v
theories/HalfRot_Props.v
theories/HalfRot_Spec.v
theories/Hirsch_Model.v
theories/Hirsch_Proofs.v
theories/Hirsch_Props.v
theories/Hirsch_Spec.v
theories/HoleSpin_Model.v
theories/HoleSpin_Proofs.v
theories/HoleSpin_Props.v
theories/HoleSpin_Spec.v
theories/ITCF_Model.v
theories/ITCF_Proofs.v
theories/ITCF_Props.v
theories/ITCF_Spec.v
theories/Input_Model.v
theories/Input_Proofs.v
theories/Input_Props.v
theories/Input_Spec.v
theories/KPoint_Model.v
theories/KPoint_More.v
theories/KPoint_Proofs.v
theories/KPoint_Props.v
theories/KPoint_Spec.v
theories/Kspace_Model.v
theories/Kspace_Proofs.v
theories/Kspace_Props.v
theories/Kspace_Spec.v
theories/LEnergy_Model.v
theories/LEnergy_Proofs.v
theories/LEnergy_Props.v
theories/LEnergy_Spec.v
theories/Lattice_Model.v
theories/Lattice_Proofs.v
theories/Lattice_Props.v
theories/Lattice_Spec.v
theories/LowRank_Model.v
theories/LowRank_Proofs.v
theories/LowRank_Props.v
theories/LowRank_Spec.v
theories/MFMore_Proofs.v
theories/MFShift_Model.v
theories/MFShift_Proofs.v
theories/MFShift_Props.v
theories/MFShift_Spec.v
theories/MPI_Model.v
theories/MPI_Proofs.v
theories/Mixed_Model.v
theories/Mixed_Proofs.v
theories/Mixed_Props.v
theories/Mixed_Spec.v
theories/MultiDet_Model.v
theories/MultiDet_Proofs.v
theories/MultiDet_Props.v
theories/MultiDet_Spec.v
theories/OneBody_Model.v
theories/OneBody_Proofs.v
theories/OneBody_Props.v
theories/OneBody_Spec.v
theories/OrthoAO_Model.v
theories/OrthoAO_Proofs.v
theories/OrthoAO_Props.v
theories/OrthoAO_Spec.v
theories/Ortho_Model.v
theories/Ortho_Proofs.v
theories/Ortho_Props.v
theories/Ortho_Spec.v
theories/Output_Spec.v
theories/PHMSD_Last.v
theories/PHMSD_Model.v
theories/PHMSD_Overlap.v
theories/PHMSD_Proofs.v
theories/PHMSD_Props.v
theories/PHMSD_Spec.v
theories/PWConv_Proofs.v
theories/PWEnergy_Proofs.v
theories/PWFFT_Last.v
theories/PWFFT_Model.v
theories/PWFFT_Proofs.v
theories/PWFFT_Props.v
theories/PWFFT_Spec.v
theories/PWGrid_Proofs.v
theories/PWLookup_Proofs.v
theories/PWProp_Last.v
theories/PWProp_Model.v
theories/PWProp_Proofs.v
theories/PWProp_Props.v
theories/PWProp_Spec.v
theories/PWSystem_Proofs.v
theories/PairBranchMPI_Proofs.v
theories/PairBranch_Model.v
theories/PairBranch_Proofs.v
theories/PairBranch_Props.v
theories/PairBranch_Spec.v
theories/Phaseless_Model.v
theories/Phaseless_Proofs.v
theories/Phaseless_Props.v
theories/Phaseless_Spec.v
theories/Phonon_Model.v
theories/Phonon_Proofs.v
theories/Phonon_Props.v
theories/Phonon_Spec.v
theories/PivotQR_Proofs.v
theories/PopControl_Model.v
theories/PopControl_Proofs.v
theories/PropStack_Model.v
theories/PropStack_Proofs.v
theories/PropStack_Props.v
theories/PropStack_Spec.v
theories/Qmcpack_Model.v
theories/Qmcpack_Proofs.v
theories/Qmcpack_Props.v
theories/Qmcpack_Spec.v
theories/Rank1_Model.v
theories/Rank1_Proofs.v
theories/Rank1_Props.v
theories/Rank1_Spec.v
theories/Ratio_Model.v
theories/Ratio_Proofs.v
theories/Ratio_Props.v
theories/Ratio_Spec.v
theories/RealUEG_Model.v
theories/RealUEG_Proofs.v
theories/RealUEG_Props.v
theories/RealUEG_Spec.v
theories/RealUEG_Sym.v
theories/Rediag_Last.v
theories/Rediag_Model.v
theories/Rediag_More.v
theories/Rediag_Proofs.v
theories/Rediag_Props.v
theories/Rediag_Spec.v
theories/RegInv_Model.v
theories/RegInv_Proofs.v
theories/RegInv_Props.v
theories/RegInv_SVD.v
theories/RegInv_Spec.v
theories/Reorder_Model.v
theories/Reorder_Proofs.v
theories/Reorder_Props.v
theories/Reorder_Spec.v
theories/Restart_Model.v
theories/Restart_Proofs.v
theories/Restart_Spec.v
theories/Rotated_Model.v
theories/Rotated_Proofs.v
theories/Rotated_Props.v
theories/Rotated_Spec.v
theories/Sample_Model.v
theories/Sample_Proofs.v
theories/Sample_Props.v
theories/Sample_Spec.v
theories/Sort_Model.v
theories/Sort_Proofs.v
theories/Spectral_Proofs.v
theories/StackSize_Model.v
theories/StackSize_Proofs.v
theories/StackSize_Spec.v
theories/TGreen_Model.v
theories/TGreen_Proofs.v
theories/TGreen_Props.v
theories/TGreen_Spec.v
theories/THF_Model.v
theories/THF_Proofs.v
theories/THF_Props.v
theories/THF_Spec.v
theories/Taylor_Model.v
theories/Taylor_Proofs.v
theories/Taylor_Props.v
theories/Taylor_Spec.v
theories/TimeGridRun_Props.v
theories/TimeGrid_Model.v
theories/TimeGrid_Proofs.v
theories/TimeGrid_Props.v
theories/TimeGrid_Spec.v
theories/Trial_Last.v
theories/Trial_Model.v
theories/Trial_More.v
theories/Trial_Proofs.v
theories/Trial_Props.v
theories/Trial_Spec.v
theories/UEGEnergy_Model.v
theories/UEGEnergy_Proofs.v
theories/UEGEnergy_Props.v
theories/UEGEnergy_Spec.v
theories/UEG_Model.v
theories/UEG_Proofs.v
theories/UEG_Props.v
theories/UEG_Spec.v
theories/Wfn_Model.v
theories/Wfn_Proofs.v
theories/Wfn_Props.v
theories/Wfn_Spec.v
