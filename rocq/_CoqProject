-Q theories Verif
theories/Base.v
theories/BaseProofs.v
theories/Mem.v
theories/MemProofs.v
theories/ArrayManip.v
theories/ArrayManipProofs.v
theories/BufferManip.v
theories/BufferManipProofs.v
theories/Indexing.v
theories/IndexingSpec.v
theories/IndexingProofs.v
theories/IndexingProofs2.v
theories/IndexingProofs3.v
theories/Array.v
theories/ArraySpec.v
theories/PropIndexing.v
theories/ArrayProofs.v
theories/ArrayProofs2.v
theories/ArrayProofs3.v
theories/ArrayProofs4.v
theories/PropArray.v
theories/Sorted.v
theories/SortedSpec.v
theories/SortedProofs.v
theories/SortedProofs2.v
theories/SortedProofs3.v
theories/SortedArray.v
theories/SortedArraySpec.v
theories/SortedArrayProofs.v
theories/PropSorted.v
theories/Introsort.v
theories/IntrosortProofs.v
theories/PropSort.v
theories/AoA.v
theories/AoALayout.v
theories/AoAProofs.v
theories/AoAProofs2.v
theories/AoASpec.v
theories/AoAProofs3.v
theories/AoAProofs4.v
theories/PropAoA.v
theories/AoS.v
theories/SetsProofs.v
theories/AoSSpec.v
theories/SetsProofs2.v
theories/AoSProofs.v
theories/AoSProofs2.v
theories/PropAoS.v
theories/Sparsity.v
theories/SparsitySpec.v
theories/SparsityProofs.v
theories/SparsityProofs2.v
theories/PropSparsity.v
theories/CRS.v
theories/CRSSpec.v
theories/CRSProofs.v
theories/CRSProofs2.v
theories/CRSProofs3.v
theories/CRSProofs4.v
theories/PropCRS.v
theories/Conc.v
theories/Atomic.v
theories/AtomicProofs.v
theories/PropAtomic.v
theories/AtomicAdd.v
theories/AtomicAddProofs.v
theories/PropAtomicAdd.v
theories/Integers.v
theories/IntegersProofs.v
theories/TypeManip.v
theories/PropTypes.v
theories/Memcpy.v
theories/PropMemcpy.v
theories/SizeText.v
theories/PropSize.v
theories/Values.v
theories/ValuesProofs.v
theories/ValuesSpec.v
theories/ValuesProofs2.v
theories/CopyMove.v
theories/CopyMoveProofs.v
theories/PropCopy.v
theories/AoACopy.v
theories/AoACopyProofs.v
theories/AoAValuesSpec.v
theories/AoAValues.v
theories/PropAoACopy.v
theories/Tensor.v
theories/TensorSpec.v
theories/TensorFixed.v
theories/TensorProofs.v
theories/TensorFixedProofs.v
theories/TensorLaws.v
theories/PropTensor.v
theories/PropTensorFixed.v
theories/Text.v
theories/TextSpec.v
theories/TextMem.v
theories/TextSound.v
theories/TextComplete.v
theories/TextTop.v
theories/PropText.v
theories/Chai.v
theories/ChaiSpec.v
theories/ChaiProofs.v
theories/ChaiNull.v
theories/ChaiFlat.v
theories/PropChai.v
theories/Forward.v
theories/ForwardProofs.v
theories/PropForward.v
theories/Prog.v
theories/ProgProofs.v
theories/ViewProg.v
theories/ViewSim.v
theories/RowSim.v
theories/RowSim2.v
theories/RowPar.v
theories/RowSpec.v
theories/RowCalls.v
theories/RowTop.v
theories/RowInst.v
theories/RowInst2.v
theories/PropRows.v
theories/Eigen.v
theories/EigenProofs.v
theories/EigenProofs2.v
theories/EigenReal.v
theories/EigenSpec.v
theories/EigenMath.v
theories/EigenMath2.v
theories/EigenReal2.v
theories/EigenReal3.v
theories/PropEigen.v
theories/MachineIndex.v
theories/MachineIndexProofs.v
theories/PropMachine.v
theories/PropExtents.v
theories/Handlers.v
theories/PropHandlers.v
theories/Nested.v
theories/NestedSpec.v
theories/NestedFrame.v
theories/NestedInner.v
theories/NestedOuter.v
theories/NestedProofs.v
theories/PropNested.v
theories/OwnRange.v
theories/OwnRangeProofs.v
theories/OwnRangeProofs2.v
theories/OwnRangeProofs3.v
theories/OwnRangeProofs4.v
theories/PropOwn.v
theories/PyRef.v
theories/PyRefSpec.v
theories/PyRefProofs.v
theories/PropPyRef.v
theories/PyBase.v
theories/PyArrays.v
theories/PyArraysSpec.v
theories/PyArraysProofs.v
theories/PropPyArrays.v
theories/PySets.v
theories/PySetsSpec.v
theories/PySetsProofs.v
theories/PropPySets.v
theories/PyCRS.v
theories/PyCRSSpec.v
theories/PyCRSProofs.v
theories/PropPyCRS.v
theories/GridSpec.v
theories/GridProofs.v
theories/Uninit.v
theories/UninitSpec.v
theories/UninitProofs.v
theories/PropGrid.v
theories/PyArray.v
theories/PyArraySpec.v
theories/PyArrayProofs.v
theories/PropPyArray.v
theories/SortedOwn.v
theories/SortedOwnProofs.v
theories/SortedOwnProofs2.v
theories/PropSortedOwn.v
theories/Spaces.v
theories/SpacesSpec.v
theories/SpacesProofs.v
theories/SpacesAoA.v
theories/SpacesAoASpec.v
theories/SpacesAoAProofs.v
theories/PropSpaces.v
theories/MachineAoA.v
theories/MachineAoASpec.v
theories/MachineAoAProofs.v
theories/MachineAoAGen.v
theories/MachineAoAProofs2.v
theories/PropMachineAoA.v
theories/Throw.v
theories/ThrowSpec.v
theories/ThrowProofs.v
theories/ThrowProofs2.v
theories/ThrowProofs3.v
theories/PropThrow.v
theories/Macros.v
theories/MacrosSpec.v
theories/MacrosProofs.v
theories/MacrosProofs2.v
theories/PropMacros.v
theories/Print.v
theories/PrintSpec.v
theories/PrintProofs.v
theories/PrintProofs2.v
theories/PropPrint.v
theories/CRSOwn.v
theories/CRSOwnProofs.v
theories/CRSOwnProofs2.v
theories/PropCRSOwn.v
theories/MachineSets.v
theories/MachineSetsSpec.v
theories/MachineSetsProofs.v
theories/MachineSetsProofs2.v
theories/MachineSetsProofs3.v
theories/MachineSetsProofs4.v
theories/MachineSetsProofs5.v
theories/MachineSetsProofs6.v
theories/MachineSetsProofs7.v
theories/MachineRange.v
theories/PropMachineSets.v
theories/Consistency.v
theories/ConsistencySpec.v
theories/ConsistencyProofs.v
theories/PropConsistency.v
theories/ThrowAoA.v
theories/ThrowAoASpec.v
theories/ThrowAoAProofs.v
theories/ThrowAoAProofs2.v
theories/ThrowAoAProofs3.v
theories/ThrowAoAProofs4.v
theories/ThrowAoAProofs5.v
theories/PropThrowAoA.v
theories/ThrowSorted.v
theories/ThrowSortedSpec.v
theories/ThrowSortedProofs.v
theories/ThrowSortedProofs2.v
theories/PropThrowSorted.v
theories/ThrowSets.v
theories/ThrowSetsSpec.v
theories/ThrowSetsProofs.v
theories/ThrowSetsProofs2.v
theories/ThrowSetsProofs3.v
theories/PropThrowSets.v
theories/ThrowCRS.v
theories/ThrowCRSSpec.v
theories/ThrowCRSProofs.v
theories/ThrowCRSProofs2.v
theories/ThrowCRSProofs3.v
theories/ThrowCRSProofs4.v
theories/ThrowCRSProofs5.v
theories/PropThrowCRS.v
theories/AoACapacity.v
theories/AoACapacityProofs.v
theories/PropAoACapacity.v
theories/Debug.v
theories/DebugAdds.v
theories/DebugProofs.v
theories/DebugProofs2.v
theories/PropDebug.v
theories/DebugSorted.v
theories/DebugSortedProofs.v
theories/PropDebugSorted.v
theories/DebugCRS.v
theories/DebugCRSProofs.v
theories/PropDebugCRS.v
theories/DebugSets.v
theories/DebugSetsProofs.v
theories/PropDebugSets.v
theories/DebugSparsity.v
theories/DebugSparsityProofs.v
theories/PropDebugSparsity.v
theories/DebugMatrix.v
theories/DebugMatrixProofs.v
theories/PropDebugMatrix.v
theories/MallocFail.v
theories/MallocFailProofs.v
theories/PropMallocFail.v
theories/DebugSort.v
theories/DebugSortProofs.v
theories/PropDebugSort.v
theories/DimQuery.v
theories/PropDimQuery.v
