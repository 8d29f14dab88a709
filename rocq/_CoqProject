-Q theories Verif
theories/PyBase.v
theories/PySet.v
theories/PySetProofs.v
theories/PySetWide.v
theories/Names.v
theories/SpecNames.v
theories/NamesProofs.v
theories/Properties_Names.v
theories/Graph.v
theories/SpecGraph.v
theories/SpecSetup.v
theories/GraphLemmas.v
theories/GraphRegister.v
theories/GraphPrune.v
theories/GraphPruneSharp.v
theories/GraphTidy.v
theories/GraphEdges.v
theories/GraphTopo.v
theories/GraphSetup.v
theories/GraphCycle.v
theories/GraphTheorems.v
theories/GraphWitness.v
theories/Properties_Graph.v
theories/Replace.v
theories/ReplaceProofs.v
theories/SpecVisit.v
theories/ReplaceVisit.v
theories/GroupApi.v
theories/SpecApi.v
theories/GroupApiProofs.v
theories/GroupApiAcyclic.v
theories/GroupApiShape.v
theories/GroupApiWired.v
theories/GroupApiSetup.v
theories/GroupApiHistory.v
theories/GroupApiLast.v
theories/GroupApiUses.v
theories/SpecRun.v
theories/Run.v
theories/RunProofs.v
theories/ApiCheck.v
theories/ApiTheorems.v
theories/ApiWitness.v
theories/Properties_Api.v
theories/Options.v
theories/SpecOptions.v
theories/OptionsProofs.v
theories/Properties_Options.v
theories/RSum.v
theories/NdArray.v
theories/NdEinsum.v
theories/Component.v
theories/JacSpec.v
theories/CompReorder.v
theories/SpecReorder.v
theories/ReorderProofs.v
theories/Properties_Reorder.v
theories/CompReduce.v
theories/SpecReduce.v
theories/ReduceProofs.v
theories/Properties_Reduce.v
theories/CompProduct.v
theories/SpecProduct.v
theories/ProductProofs.v
theories/CrossProofs.v
theories/CompRot.v
theories/SpecRot.v
theories/RotProofs.v
theories/Properties_Product.v
theories/CompEinsum.v
theories/SpecEinsum.v
theories/EinsumStrings.v
theories/EinsumCalc.v
theories/EinsumProofs.v
theories/EinsumNew.v
theories/Properties_Einsum.v
theories/CompEinsumSparse.v
theories/EinsumPattern.v
theories/EinsumSparse.v
theories/EinsumSparseMain.v
theories/EinsumOrder.v
theories/Properties_EinsumSparse.v
theories/CompElem.v
theories/JacOpen.v
theories/SpecElem.v
theories/ElemProofs.v
theories/ArithProofs.v
theories/ArithRefute.v
theories/Properties_Elem.v
theories/CompExtremum.v
theories/SpecExtremum.v
theories/KsMath.v
theories/ExpandEinsum.v
theories/ExtremumProofs.v
theories/CompNorm.v
theories/SpecNorm.v
theories/NormProofs.v
theories/KeptProofs.v
theories/Properties_Extremum.v
theories/CompCond.v
theories/SpecCond.v
theories/CondProofs.v
theories/Properties_Cond.v
theories/CompTensor.v
theories/SpecTensor.v
theories/TensorProofs.v
theories/TensorNegative.v
theories/Properties_Tensor.v
theories/NdIndex.v
theories/Indexing.v
theories/SpecIndex.v
theories/IndexProofs.v
theories/IndexOther.v
theories/Properties_Index.v
theories/Setitem.v
theories/SpecSetitem.v
theories/SetitemProofs.v
theories/SetitemOverlap.v
theories/Properties_Setitem.v
theories/ShapeVal.v
theories/SpecShapeVal.v
theories/ShapeValProofs.v
theories/Properties_ShapeVal.v
theories/Implicit.v
theories/SpecImplicit.v
theories/BisectProofs.v
theories/ImplicitProofs.v
theories/ImplicitSetup.v
theories/ImplicitRejected.v
theories/ImplicitSolve.v
theories/ImplicitWitness.v
theories/Properties_Implicit.v
theories/StdCalls.v
theories/SpecShapes.v
theories/ShapeProofs.v
theories/ShapeMain.v
theories/SpecBuild.v
theories/BuildProofs.v
theories/Properties_Shapes.v
theories/Inherit.v
theories/SpecInherit.v
theories/InheritProofs.v
theories/Properties_Inherit.v
theories/CompPoly.v
theories/SpecPoly.v
theories/PolyProofs.v
theories/Properties_Poly.v
theories/SpecTotal.v
theories/TotalCalc.v
theories/SpecDeriv.v
theories/DerivProofs.v
theories/TotalElem.v
theories/TotalLinear.v
theories/TotalRot.v
theories/TotalMore.v
theories/SpecStd.v
theories/TotalMain.v
theories/DerivMain.v
theories/DerivExample.v
theories/SpecAdjoint.v
theories/AdjointProofs.v
theories/AdjointMain.v
theories/Properties_Total.v
theories/CompDirect.v
theories/SpecDirect.v
theories/DirectProofs.v
theories/DirectMore.v
theories/Properties_Direct.v
theories/StructureData.v
theories/SpecData.v
theories/DataProofs.v
theories/Properties_Data.v
theories/SpecRoot.v
theories/RootProofs.v
theories/SpecTotals.v
theories/TotalsProofs.v
theories/Properties_Root.v
theories/Assemble.v
theories/SpecAssemble.v
theories/AssembleProofs.v
theories/SetupAgain.v
theories/AssembleWitness.v
theories/Properties_Assemble.v
theories/SpecMeaning.v
theories/MeaningProofs.v
theories/MeaningExample.v
theories/Properties_Meaning.v
theories/ImplicitAgain.v
theories/ImplicitAgainProofs.v
theories/GraphTick.v
theories/CreateGroup.v
theories/CreateGroupProofs.v
theories/Properties_Block.v
theories/ExampleNames.v
theories/SpecExamples.v
theories/ExampleProofs.v
theories/Properties_Examples.v
theories/InternalProblem.v
theories/SpecInternal.v
theories/InternalProofs.v
theories/InternalExample.v
theories/Properties_Internal.v
theories/Nested.v
theories/SpecNested.v
theories/NestedProofs.v
theories/NestedExample.v
theories/Properties_Nested.v
theories/SpecBroadcast.v
theories/BroadcastProofs.v
theories/SpecAccept.v
theories/AcceptProofs.v
theories/ComputeEinsum.v
theories/ComputeInner.v
theories/Conditional.v
theories/ConditionalProofs.v
theories/Properties_Conditional.v
theories/Properties_Accept.v
theories/ImplicitModel.v
theories/SpecImplicitModel.v
theories/ImplicitModelProofs.v
theories/ImplicitModelExample.v
theories/Properties_ImplicitModel.v
theories/SpecCompute.v
theories/ComputeProofs.v
theories/Properties_Compute.v
theories/BroadcastArith.v
theories/Properties_Broadcast.v
theories/PyNumbers.v
theories/SpecNumbers.v
theories/NumberProofs.v
theories/Properties_Numbers.v
theories/MatStack.v
theories/SpecMatStack.v
theories/MatStackProofs.v
theories/Properties_MatStack.v
theories/CrossNeg.v
theories/CrossNegProofs.v
theories/Properties_CrossNeg.v
theories/AxisForms.v
theories/SpecAxisForms.v
theories/AxisFormsProofs.v
theories/Properties_AxisForms.v
theories/VarInit.v
theories/SpecVarInit.v
theories/VarInitProofs.v
theories/Properties_VarInit.v
