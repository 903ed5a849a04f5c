-Q theories Verif
theories/Exn.v
theories/GC.v
theories/L_Alg.v
theories/L_Basis.v
theories/L_CFock.v
theories/L_CScal.v
theories/L_Cliques.v
theories/L_Cluster.v
theories/L_Commutant.v
theories/L_Commuting.v
theories/L_ConvAlg.v
theories/L_ConvFerm.v
theories/L_ConvLin.v
theories/L_ConvMaj.v
theories/L_ConvMaj2.v
theories/L_ConvMat.v
theories/L_ConvOrd.v
theories/L_Conversion.v
theories/L_Conversion2.v
theories/L_Conversion3.v
theories/L_Conversion4.v
theories/L_Core.v
theories/L_Cubic.v
theories/L_Cumul2.v
theories/L_Cumul3.v
theories/L_Cumul4.v
theories/L_Cumulative.v
theories/L_Diag1.v
theories/L_Diag2.v
theories/L_Diag3.v
theories/L_Diag4.v
theories/L_Diag5.v
theories/L_DiagEx.v
theories/L_Dim.v
theories/L_Distance.v
theories/L_Explore.v
theories/L_Explore2.v
theories/L_Explore3.v
theories/L_Explore4.v
theories/L_Fock.v
theories/L_Generate.v
theories/L_Generate2.v
theories/L_Heap.v
theories/L_Herm.v
theories/L_Indep.v
theories/L_Inter.v
theories/L_Invariant.v
theories/L_Invariant2.v
theories/L_Invariant3.v
theories/L_JW.v
theories/L_JW2.v
theories/L_Jacobi.v
theories/L_LU.v
theories/L_Lattice1.v
theories/L_Lattice2.v
theories/L_Lattice3.v
theories/L_Lattice4.v
theories/L_LatticeEx.v
theories/L_Lie.v
theories/L_LinAlg.v
theories/L_Module.v
theories/L_OpAlg.v
theories/L_Operator.v
theories/L_Parse.v
theories/L_PartIso.v
theories/L_Perm.v
theories/L_PropBasis.v
theories/L_PropOpAlg.v
theories/L_PropStr.v
theories/L_PropTools.v
theories/L_Quad.v
theories/L_Quad2.v
theories/L_Quad3.v
theories/L_Schur.v
theories/L_Schur2.v
theories/L_Schur3.v
theories/L_Show.v
theories/L_Sort.v
theories/L_SortTol.v
theories/L_SpaceEx.v
theories/L_SpaceExamples.v
theories/L_SpaceGroup.v
theories/L_Sparsify.v
theories/L_StrAlg.v
theories/L_StrOp.v
theories/L_Struct.v
theories/L_Sum.v
theories/L_SymLattice.v
theories/L_SymLattice2.v
theories/L_Symm.v
theories/L_Symm2.v
theories/L_Symm3.v
theories/L_SymmP.v
theories/L_Tools.v
theories/L_Trans1.v
theories/L_Trans2.v
theories/L_Trans3.v
theories/L_Trans4.v
theories/L_Trans5.v
theories/L_Trans6.v
theories/L_Trans7.v
theories/L_Trans8.v
theories/L_Trans9.v
theories/L_Unique.v
theories/L_VSum.v
theories/M_Algebra.v
theories/M_Basis.v
theories/M_Cluster.v
theories/M_Conversion.v
theories/M_Core.v
theories/M_Diag.v
theories/M_Explore.v
theories/M_Heap.v
theories/M_Lattice.v
theories/M_LinAlg.v
theories/M_OpAlg.v
theories/M_OpString.v
theories/M_Quad.v
theories/M_Schur.v
theories/M_SpaceGroup.v
theories/M_SymLattice.v
theories/M_Symm.v
theories/M_Tools.v
theories/M_Transform.v
theories/P_Again.v
theories/P_Algebra.v
theories/P_Basis.v
theories/P_Cluster.v
theories/P_Conversion.v
theories/P_Core.v
theories/P_Cumulative.v
theories/P_Default.v
theories/P_Diag.v
theories/P_Explore.v
theories/P_Generate.v
theories/P_Invariant.v
theories/P_Kagome.v
theories/P_Lattice.v
theories/P_LinAlg.v
theories/P_OpAlg.v
theories/P_Quad.v
theories/P_Schur.v
theories/P_SpaceGroup.v
theories/P_Sparsify.v
theories/P_Strings.v
theories/P_SymLattice.v
theories/P_Symm.v
theories/P_Tools.v
theories/P_Transform.v
theories/PyStr.v
theories/S_Alg.v
theories/S_Basis.v
theories/S_Built.v
theories/S_CFock.v
theories/S_CScal.v
theories/S_Cluster.v
theories/S_Conv.v
theories/S_Core.v
theories/S_Cumulative.v
theories/S_Den.v
theories/S_Diag.v
theories/S_Explore.v
theories/S_Fock.v
theories/S_Generate.v
theories/S_Invariant.v
theories/S_Lattice.v
theories/S_LinAlg.v
theories/S_OpAlg.v
theories/S_Quad.v
theories/S_RScal.v
theories/S_Schur.v
theories/S_Sparsify.v
theories/S_SymLattice.v
theories/S_Symm.v
theories/S_Tools.v
theories/S_Transform.v
theories/M_Entropy.v
theories/L_Entropy1.v
theories/L_Entropy2.v
theories/S_Entropy.v
theories/L_Entropy3.v
theories/P_Entropy.v
theories/M_Greedy.v
theories/S_Greedy.v
theories/L_Greedy1.v
theories/L_Greedy2.v
theories/L_Greedy3.v
theories/L_Greedy4.v
theories/P_Greedy.v
theories/S_Search.v
theories/L_Search.v
theories/L_Search2.v
theories/P_Search.v
theories/S_Fidelity.v
theories/L_Fidelity.v
theories/P_Fidelity.v
theories/M_Target.v
theories/S_Target.v
theories/L_Target.v
theories/P_Target.v
theories/S_Target2.v
theories/L_Target2.v
theories/P_Target2.v
theories/M_SelectedCI.v
theories/S_SelectedCI.v
theories/P_SelectedCI.v
theories/M_ManyOps.v
theories/S_ManyOps.v
theories/P_ManyOps.v
theories/M_ManyOps2.v
theories/S_ManyOps2.v
theories/S_Penalty.v
theories/L_Penalty.v
theories/L_ManyOps2.v
theories/P_ManyOps2.v
theories/M_LieOps.v
theories/S_LieOps.v
theories/L_LieOps.v
theories/L_LieOps2.v
theories/L_LieOps3.v
theories/P_LieOps.v
theories/M_Diagonalize.v
theories/S_Diagonalize.v
theories/L_Diagonalize.v
theories/L_Diagonalize2.v
theories/P_Diagonalize.v
theories/M_Modes.v
theories/S_Modes.v
theories/L_Modes.v
theories/L_Modes2.v
theories/L_Modes3.v
theories/L_Modes4.v
theories/L_Modes5.v
theories/L_Modes6.v
theories/P_Modes.v
theories/M_Ladder.v
theories/S_Ladder.v
theories/L_Ladder.v
theories/L_Ladder2.v
theories/L_Ladder3.v
theories/L_Ladder4.v
theories/L_Ladder5.v
theories/L_Ladder6.v
theories/P_Ladder.v
theories/L_Ladder7.v
theories/P_Inverse.v
theories/M_LMatrix.v
theories/S_LMatrix.v
theories/L_LMatrix.v
theories/P_LMatrix.v
