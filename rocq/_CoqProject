-Q theories Verif
theories/Base.v
theories/Fock_Spec.v
theories/Fock_Proofs.v
theories/Occ_Model.v
theories/Occ_Spec.v
theories/Hopping_Model.v
theories/Hopping_Proofs.v
theories/Buffer_Proofs.v
theories/Fast_Contract.v
theories/Hubbard_Model.v
theories/Hubbard_Proofs.v
theories/Hubbard_Lemmas.v
theories/Hubbard_Props.v
theories/Mol_Fock.v
theories/Mol_Row.v
theories/AbInitio_Model.v
theories/AbInitio_Proofs.v
theories/AbInitio_Row.v
theories/Mol_Adj.v
theories/AbInitioOtf_Model.v
theories/AbInitio_Lemmas.v
theories/AbInitioOtf_Proofs.v
theories/AbInitioOtf_Energy.v
theories/AbInitioOtf_RDM.v
theories/AbInitio_Lemmas2.v
theories/AbInitio_Props.v
theories/Sparse_Model.v
theories/Sparse_Csr.v
theories/Sparse_Fock.v
theories/Sparse_Proofs.v
theories/Sparse_Energy.v
theories/Sparse_Props.v
theories/Batch_Proofs.v
theories/Asep_Model.v
theories/Asep_Spec.v
theories/Asep_Proofs.v
theories/Asep_Lemmas.v
theories/Asep_Props.v
theories/J1J2_Model.v
theories/J1J2_Props.v
theories/Choice_Model.v
theories/Choice_Proofs.v
theories/Choice_Props.v
theories/Rule_Model.v
theories/Rule_Proofs.v
theories/Rule_Lemmas.v
theories/Rule_Sym.v
theories/Rule_Single.v
theories/Rule_Props.v
theories/Metropolis_Model.v
theories/Metropolis_Spec.v
theories/Metropolis_Props.v
theories/Metropolis_Inst.v
theories/Hilbert_Model.v
theories/Hilbert_Props.v
theories/H2O_Model.v
theories/H2O_Props.v
theories/QGPS_Model.v
theories/QGPS_Proofs.v
theories/QGPS_Lemmas.v
theories/QGPS_Sym.v
theories/QGPS_Group.v
theories/QGPS_Props.v
theories/AR_Model.v
theories/AR_Sym.v
theories/AR_Proofs.v
theories/AR_Lemmas.v
theories/AR_Site.v
theories/AR_Sector.v
theories/AR_Props.v
theories/Update_Proto.v
theories/Plaq_Model.v
theories/Plaq_Props.v
theories/Elec_Model.v
theories/Elec_Props.v
theories/Slater_Model.v
theories/Slater_Det.v
theories/Slater_Pos.v
theories/Slater_Sign.v
theories/Slater_Proofs.v
theories/Slater_Props.v
theories/Slater_Rot.v
theories/CPD_Model.v
theories/CPD_Props.v
theories/Pfaff_Spec.v
theories/Pfaff_Model.v
theories/Pfaff_Proofs.v
theories/Pfaff_Props.v
theories/Jastrow_Model.v
theories/Jastrow_Props.v
theories/Seg_Model.v
theories/Seg_Props.v
theories/Causal_Model.v
theories/Causal_Props.v
theories/Unique_Model.v
theories/Unique_Props.v
theories/Split_Model.v
theories/Split_Props.v
theories/Strat_Model.v
theories/Strat_Props.v
theories/Imag_Model.v
theories/Imag_Props.v
theories/MinSR_Model.v
theories/MinSR_Proofs.v
theories/MinSR_Props.v
theories/MinSR_SR.v
theories/QGT_Model.v
theories/QGT_Props.v
theories/SRR_Model.v
theories/SRR_Props.v
theories/SRR_Ranks.v
theories/Sup_Model.v
theories/Sup_Cache.v
theories/Sup_Fit_Model.v
theories/Sup_Fit_Proofs.v
theories/Sup_Fit_Props.v
theories/Sup_Fit_Expand.v
theories/Sup_Fit_Step.v
theories/Sup_Glm_Model.v
theories/Sup_Glm_Props.v
theories/Sup_Alpha.v
theories/Sup_Glm_Grad.v
theories/ARFull_Model.v
theories/ARFull_Proofs.v
theories/ARFull_Props.v
theories/Backflow_Model.v
theories/Backflow_Props.v
theories/Asymm_Model.v
theories/Asymm_Props.v
theories/UQGT_Model.v
theories/UQGT_Props.v
theories/Rstruct.v
theories/Fld.v
theories/Numq.v
theories/Sup_Ev_Alg.v
theories/Sup_RVM_Model.v
theories/Sup_RVM_Core.v
theories/Sup_RVM_Ev.v
theories/Sup_RVM_Marg.v
theories/Sup_RVM_Step.v
theories/Sup_RVM_Props.v
theories/Sup_RVM_Ex.v
theories/Sup_RVM_Ex2.v
theories/Calc.v
theories/Sup_RVM_Der.v
theories/Sup_RVM_Noise_Model.v
theories/Sup_RVM_Noise.v
theories/Sup_RVM_Noise_Ex.v
theories/Sup_RVM_NoiseExp.v
theories/Sup_RVM_AlphaDer.v
theories/Sup_RVM_Hyper_Model.v
theories/Sup_RVM_Hyper.v
theories/Sup_RVM_Hyper_Props.v
theories/Sup_RVM_Fixed.v
theories/Sup_RVM_Exit.v
theories/Sup_RVM_Write.v
theories/Fast_Props.v
theories/Fast_Dispatch.v
theories/Corr_Model.v
theories/Spin_Algebra.v
theories/Spin_Singlet.v
theories/Corr_Props.v
theories/RDM_Model.v
theories/RDM_Props.v
theories/HF_Model.v
theories/HF_Props.v
theories/Select_Model.v
theories/Select_Props.v
theories/Init_Model.v
theories/Init_Props.v
theories/Lattice_Model.v
theories/Lattice_Props.v
theories/J1J2_Build_Model.v
theories/J1J2_Build_Props.v
theories/Sup_Glm_Irls_Model.v
theories/Sup_Glm_Irls.v
theories/Sup_Glm_Irls_Ex.v
theories/Sup_Glm_Ev_Model.v
theories/Sup_Glm_Ev.v
theories/Sup_Glm_Ev_Props.v
theories/Sup_Zero_Model.v
theories/Sup_Zero.v
theories/Sup_Zero_Props.v
theories/AR_Phase_Model.v
theories/AR_Phase.v
theories/Ckpt_Model.v
theories/Ckpt_Props.v
theories/Vmc_Script_Model.v
theories/Vmc_Script_Props.v
theories/Vmc_Backflow_Props.v
theories/Timer_Model.v
theories/Timer_Props.v
theories/H2O_Ref_Model.v
theories/H2O_Ref_Props.v
theories/H4_Model.v
theories/H4_Props.v
theories/Metro_Inf_Model.v
theories/Metro_Inf_Props.v
theories/Energy_Grad_Model.v
theories/Energy_Grad_Props.v
theories/Argps_Model.v
theories/Argps_Props.v
theories/Argps_Filter.v
theories/Basis_Fock.v
theories/Basis_Rot.v
theories/Basis_Model.v
theories/Basis_Props.v
theories/Basis_Files.v
theories/Prune_Model.v
theories/Prune_Props.v
theories/Sheet_Model.v
theories/Sheet_Props.v
theories/Dispatch_Model.v
theories/Dispatch_Props.v
theories/Rrcf.v
theories/Descent_Props.v
theories/MinSR_Descent_Props.v
theories/Pixel_Model.v
theories/Pixel_Props.v
theories/Expect_Model.v
theories/Expect_Props.v
theories/MinSR_Stats_Model.v
theories/MinSR_Stats_Props.v
theories/Markov.v
theories/Chain_Model.v
theories/Chain_Lemmas.v
theories/Chain_Props.v
theories/Exchange_Chain_Model.v
theories/Exchange_Chain_Props.v
theories/MiniBatch_Model.v
theories/MiniBatch_Props.v
theories/Keys_Model.v
theories/Keys_Props.v
theories/UniqueBias_Model.v
theories/UniqueBias_Props.v
theories/StratBias_Props.v
theories/MinSR_Pytree_Model.v
theories/MinSR_Pytree_Props.v
theories/SRR_Pytree_Model.v
theories/SRR_Pytree_Props.v
theories/SRPre_Model.v
theories/SRPre_Props.v
