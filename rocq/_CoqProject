-Q theories Verif
theories/Base.v
theories/Indices.v
theories/Scalar.v
theories/Fock.v
theories/FockFacts.v
theories/OpModel.v
theories/OpExpr.v
theories/OpNormal.v
theories/OpUnique.v
theories/Op_proofs.v
theories/ScalarInst.v
theories/Op_cex.v
theories/Op_props.v
theories/TimePt.v
theories/TimePt_proofs.v
theories/TimePt_props.v
theories/Hilbert.v
theories/State.v
theories/ImpOp.v
theories/ImpOp_proofs.v
theories/Hilbert_proofs.v
theories/StateSpec.v
theories/State_proofs.v
theories/ImpOp_run.v
theories/ImpOp_thms.v
theories/Hilbert_props.v
theories/State_props.v
theories/ImpOp_props.v
theories/Matsubara.v
theories/Matsubara_proofs.v
theories/Matsubara_props.v
theories/Mesh.v
theories/Mesh_proofs.v
theories/LinMesh.v
theories/LinMesh_proofs.v
theories/Mesh_props.v
theories/LinMesh_props.v
theories/Lattice.v
theories/Lattice_proofs.v
theories/Legendre.v
theories/Legendre_proofs.v
theories/Lattice_props.v
theories/McTools.v
theories/McTools_proofs.v
theories/McTools_props.v
theories/McMisc.v
theories/McMisc_proofs.v
theories/RandomInt.v
theories/McMisc_props.v
theories/FieldTac.v
theories/DetManip.v
theories/DetSpec.v
theories/DetLemmas.v
theories/DetStruct.v
theories/DetMove.v
theories/DetNum.v
theories/DetChange.v
theories/DetInv.v
theories/DetTry.v
theories/DetHist.v
theories/DetManip_proofs.v
theories/DetManip_props.v
theories/Stat.v
theories/Stat_proofs.v
theories/Stat_jk.v
theories/Stat_mpi.v
theories/Stat_final.v
theories/Stat_props.v
theories/Hist.v
theories/Hist_proofs.v
theories/Hist_props.v
theories/Acc.v
theories/AccLin_proofs.v
theories/AccLog_proofs.v
theories/Acc_proofs.v
theories/Acc_props.v
theories/Partition.v
theories/PartitionSpec.v
theories/Partition_proofs.v
theories/Partition_merge.v
theories/Partition_imp.v
theories/Partition_thms.v
theories/Partition_props.v
theories/AtomDiag.v
theories/AtomDiag_terms.v
theories/AtomDiagSpec.v
theories/AtomDiag_lists.v
theories/AtomDiag_mats.v
theories/AtomDiag_complete.v
theories/AtomDiag_auto.v
theories/AtomDiag_thms.v
theories/AtomDiag_final.v
theories/AtomDiag_ex.v
theories/AtomDiag_props.v
theories/MpiSlice.v
theories/MpiSlice_proofs.v
theories/MpiSlice_props.v
theories/Dichotomy.v
theories/Dichotomy_proofs.v
theories/Dichotomy_props.v
theories/Grid.v
theories/Grid_proofs.v
theories/Grid_props.v
theories/Pade.v
theories/Pade_proofs.v
theories/Pade_props.v
theories/RealOrComplex.v
theories/RealOrComplex_props.v
theories/Extractors.v
theories/ExtractorsSpec.v
theories/Extractors_proofs.v
theories/Extractors_block.v
theories/Extractors_props.v
theories/GfSym.v
theories/GfSymSpec.v
theories/GfSym_proofs.v
theories/GfSym_props.v
theories/Flatten.v
theories/FlattenSpec.v
theories/Flatten_proofs.v
theories/Flatten_props.v
theories/TightBinding.v
theories/TightBindingSpec.v
theories/TightBinding_proofs.v
theories/TightBinding_props.v
theories/TbDos.v
theories/TbDosSpec.v
theories/TbDos_proofs.v
theories/TbDos_props.v
theories/SuperLattice.v
theories/SuperLatticeSpec.v
theories/SuperLattice_proofs.v
theories/SuperLattice_props.v
theories/AtomDiagOps.v
theories/AtomDiagOpsSpec.v
theories/AtomDiagOps_mono.v
theories/AtomDiagOps_sums.v
theories/AtomDiagOps_loop.v
theories/AtomDiagOps_proofs.v
theories/AtomDiagOps_act.v
theories/AtomDiagOps_trace.v
theories/AtomDiagOps_props.v
theories/FockSpec.v
theories/AtomDiag_resolve.v
theories/RealAtom.v
theories/Thermal.v
theories/ThermalSpec.v
theories/Csum.v
theories/RealAtom_ex.v
theories/Thermal_proofs.v
theories/Thermal_props.v
theories/Lehmann.v
theories/LehmannSpec.v
theories/Lehmann_fill.v
theories/Lehmann_sum.v
theories/Lehmann_green.v
theories/LegendrePoly.v
theories/Lehmann_int.v
theories/Lehmann_props.v
theories/OpAlg.v
theories/OpBody.v
theories/UMatrix.v
theories/OpUtil.v
theories/OpUtilSpec.v
theories/OpUtil_base.v
theories/OpUtil_ham.v
theories/OpUtil_phys.v
theories/UMatrix_proofs.v
theories/UMatrix_inv.v
theories/OpAng.v
theories/OpUtil_L.v
theories/OpUtil_rot.v
theories/OpUtil_inv.v
theories/OpUtil_lab.v
theories/OpUtil_thms.v
theories/OpUtil_thm2.v
theories/OpUtil_thm3.v
theories/UMatrix_neg.v
theories/OpUtil_cub.v
theories/OpUtil_mat.v
theories/OpUtil_diag.v
theories/OpUtil_dd.v
theories/OpUtil_misc.v
theories/OpUtil_props.v
theories/Fourier.v
theories/FourierSpec.v
theories/Fourier_dft.v
theories/Fourier_lat.v
theories/Fourier_real.v
theories/Fourier_riemann.v
theories/Fourier_mats.v
theories/Fourier_tail.v
theories/Fourier_fit.v
theories/Fourier_adj.v
theories/Fourier_proofs.v
theories/Fourier_props.v
theories/MatsSum.v
theories/Density.v
theories/DensitySpec.v
theories/Density_proofs.v
theories/Density_props.v
theories/Rebin.v
theories/RebinSpec.v
theories/Rebin_proofs.v
theories/Rebin_props.v
theories/LegOrth.v
theories/LegGf.v
theories/LegGfSpec.v
theories/LegGf_int.v
theories/LegGf_proofs.v
theories/LegGf_tail.v
theories/LegGf_thms.v
theories/LegGf_ex.v
theories/LegGf_props.v
theories/TailFit.v
theories/TailFitSpec.v
theories/TailFit_alg.v
theories/TailFit_hist.v
theories/TailFit_proofs.v
theories/TailFit_thms.v
theories/TailFit_props.v
theories/AtomQn.v
theories/AtomQnSpec.v
theories/AtomQn_run.v
theories/AtomQn_split.v
theories/AtomQn_conn.v
theories/AtomQn_thms.v
theories/AtomQn_ex.v
theories/AtomQn_ub.v
theories/AtomQn_props.v
theories/OpH5.v
theories/OpH5Spec.v
theories/OpH5_proofs.v
theories/OpH5_props.v
theories/AtomH5.v
theories/AtomH5Spec.v
theories/AtomH5_proofs.v
theories/AtomH5_thms.v
theories/AtomH5_props.v
theories/BoundBisect.v
theories/BoundBisectSpec.v
theories/BoundBisect_proofs.v
theories/BoundBisect_props.v
theories/Dos.v
theories/DosSpec.v
theories/Dos_proofs.v
theories/Dos_props.v
theories/PyGf.v
theories/PyGfSpec.v
theories/PyGf_proofs.v
theories/PyGf_props.v
theories/SemiCirc.v
theories/SemiCircSpec.v
theories/SemiCirc_proofs.v
theories/SemiCirc_props.v
theories/PyBlock.v
theories/PyBlockSpec.v
theories/PyBlock_proofs.v
theories/PyBlock_props.v
theories/TbConvert.v
theories/TbConvertSpec.v
theories/TbConvert_proofs.v
theories/TbConvert_props.v
theories/KGrid.v
theories/KGridSpec.v
theories/KGrid_proofs.v
theories/KGrid_props.v
theories/Bath.v
theories/BathSpec.v
theories/Bath_proofs.v
theories/Bath_props.v
theories/PyMats.v
theories/PyMatsSpec.v
theories/PyMats_props.v
theories/GfText.v
theories/GfText_proofs.v
theories/GfText_props.v
theories/DistNodes.v
theories/DistNodes_props.v
theories/BzPatch.v
theories/BzPatch_props.v
theories/ClipArray.v
theories/ClipArray_props.v
