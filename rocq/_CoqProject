-Q theories Verif
theories/PyBase.v
theories/Dict.v
theories/FreeModule.v
theories/Symmetric.v
theories/Simplicial.v
theories/Cubical.v
theories/Utils.v
theories/Surjection.v
theories/BarrattEccles.v
theories/DocExamples.v
theories/Eqm.v
theories/Spec.v
theories/FreeModuleFacts.v
theories/FreeModuleLaws.v
theories/ClassFacts.v
theories/ListFacts.v
theories/LinearFacts.v
theories/SymmetricFacts.v
theories/CycleFacts.v
theories/SymmetricLaws.v
theories/RingFacts.v
theories/RingLaws.v
theories/Heap.v
theories/HeapLaws.v
theories/P_FreeModule.v
theories/P_Classes.v
theories/P_Heap.v
theories/P_Symmetric.v
theories/P_Ring.v
theories/Tensor.v
theories/TensorAct.v
theories/LoopFacts.v
theories/SpecChain.v
theories/KoszulFacts.v
theories/SimplicialFacts.v
theories/AW.v
theories/SimplicialDiag.v
theories/SimplicialLaws.v
theories/P_Simplicial.v
theories/SpecCube.v
theories/CubicalFacts.v
theories/CubicalDiag.v
theories/CubicalJoin.v
theories/CubicalSerre.v
theories/CubicalLaws.v
theories/P_Cubical.v
theories/SpecOperad.v
theories/ActGeneric.v
theories/BEFacts.v
theories/BEOrbit.v
theories/BELaws.v
theories/P_BE.v
theories/BEDiag.v
theories/BELaws2.v
theories/P_BE2.v
theories/MayFacts.v
theories/BELaws3.v
theories/P_BE3.v
theories/EZ.v
theories/BECompose.v
theories/BilFacts.v
theories/BELaws4.v
theories/P_BE4.v
theories/SpecSurj.v
theories/SurjFacts.v
theories/SurjBoundary.v
theories/SurjLaws.v
theories/SurjAct.v
theories/SurjOrbit.v
theories/SurjLaws2.v
theories/P_Surj.v
theories/P_Surj2.v
theories/SurjLaws3.v
theories/P_Surj3.v
theories/SurjLaws4.v
theories/P_Surj4.v
theories/SpecUtils.v
theories/UtilsLaws.v
theories/UtilsLaws2.v
theories/P_Utils.v
theories/P_Utils2.v
theories/SurjMay.v
theories/SurjLaws5.v
theories/P_SurjMay.v
theories/Wilson.v
theories/SpecSteenrod.v
theories/SteenrodFacts.v
theories/SteenrodLaws.v
theories/P_Steenrod.v
theories/ZeroLaws.v
theories/P_Zero.v
theories/SurjCompose.v
theories/SurjCompose2.v
theories/SurjCompose3.v
theories/SurjCompose4.v
theories/SurjLaws6.v
theories/P_SurjCompose.v
theories/TableFacts.v
theories/TableFacts2.v
theories/TableFacts3.v
theories/TableLaws.v
theories/P_Table.v
theories/SpecSusp.v
theories/SuspLaws.v
theories/SuspFacts.v
theories/SuspLaws2.v
theories/P_Susp.v
theories/P_Susp2.v
theories/SpecAction.v
theories/ActFacts.v
theories/ActSign.v
theories/ActCore.v
theories/ActCode.v
theories/ActLaws.v
theories/P_Act.v
theories/SpecCubAction.v
theories/CubActFacts.v
theories/CubActCore.v
theories/CubActCode.v
theories/CubActLaws.v
theories/P_CubAct.v
theories/EquivAct.v
theories/EquivLaws.v
theories/SpecCochain.v
theories/SteenrodAct.v
theories/StnLaws.v
theories/P_Equiv.v
theories/P_Stn.v
theories/CpxLaws.v
theories/P_Cpx.v
theories/OperadAct.v
theories/OpActLaws.v
theories/P_OpAct.v
theories/CompEquiv.v
theories/P_CompEquiv.v
theories/Printing.v
theories/SpecPrint.v
theories/PrintFacts.v
theories/LatexFacts.v
theories/PrintLaws.v
theories/P_Print.v
theories/AcyclicFacts.v
theories/AcyclicLaws.v
theories/P_Acyclic.v
theories/StnCube.v
theories/CubeLaws.v
theories/P_StnCube.v
theories/P_Cube.v
theories/SpecAttr.v
theories/AttrLaws.v
theories/GroupMul.v
theories/GroupLaws.v
theories/P_Attr.v
theories/P_Group.v
theories/SteenrodWords.v
theories/SteenrodLin.v
theories/SteenrodClass.v
theories/P_StnClass.v
theories/SpecCup.v
theories/CupI.v
theories/CupILaws.v
theories/P_Cup.v
theories/SpecCartan.v
theories/CartanSerre.v
theories/CartanLaws.v
theories/P_Cartan.v
theories/SpecCubCup.v
theories/CubCup.v
theories/CubCup2.v
theories/CubCupLaws.v
theories/P_CubCup.v
theories/SimpDim.v
theories/DimLaws.v
theories/SpecSimpCup.v
theories/SimpCupLaws.v
theories/P_Dim.v
theories/P_SimpCup.v
theories/TableMay.v
theories/BEComplexity.v
theories/P_TableMay.v
theories/P_BEComplexity.v
theories/SpecSquares.v
theories/SqHtpy.v
theories/SqCartan.v
theories/SqAct.v
theories/SqLaws.v
theories/P_Sq.v
theories/SpecCupAlg.v
theories/CupAlgLaws.v
theories/P_CupAlg.v
theories/SpecNat.v
theories/NatLaws.v
theories/P_Nat.v
theories/SpecBock.v
theories/Bockstein.v
theories/BockLaws.v
theories/P_Bock.v
theories/P0Words.v
theories/P0Simplex.v
theories/P0Laws.v
theories/P_PZero.v
theories/Stable.v
theories/StableLaws.v
theories/StableCubLaws.v
theories/P_Stable.v
theories/P_StableCub.v
theories/Inherited.v
theories/InhLaws.v
theories/P_Inherited.v
theories/Repr.v
theories/SpecRepr.v
theories/ReprLaws.v
theories/P_Repr.v
theories/SpecAdem.v
theories/AdemHtpy.v
theories/AdemWords.v
theories/AdemSum.v
theories/AdemSym.v
theories/AdemBin.v
theories/AdemAct.v
theories/AdemLaws.v
theories/P_Adem.v
theories/HeapApi.v
theories/HeapSim.v
theories/HeapMethods.v
theories/World.v
theories/SpecObjects.v
theories/WorldSim.v
theories/WorldLaws.v
theories/ObjLaws.v
theories/P_Obj.v
theories/FloatFacts.v
theories/SpecHopf.v
theories/HopfFacts.v
theories/HopfLaws.v
theories/P_Hopf.v
theories/SpecMixed.v
theories/MixedLaws.v
theories/P_Mixed.v
theories/ProductLaws.v
theories/P_Product.v
theories/CongFacts.v
theories/TableOnto.v
theories/P_TableOnto.v
theories/SpecCong.v
theories/CongLaws.v
theories/P_Cong.v
theories/InhAdd.v
theories/P_InhAdd.v
theories/SpecArgs.v
theories/ArgsLaws.v
theories/P_Args.v
theories/ArityTwo.v
theories/ArityTwoLaws.v
theories/ArityTwoBE.v
theories/ArityTwoBELaws.v
theories/P_ArityTwo.v
theories/P_ArityTwoBE.v
theories/SpecCone.v
theories/ConeFacts.v
theories/ConeLaws.v
theories/P_Cone.v
theories/SpecHirsch.v
theories/HirschFacts.v
theories/HirschLaws.v
theories/P_Hirsch.v
theories/SpecCupi.v
theories/CupiLaws.v
theories/P_Cupi.v
theories/SerreOnto.v
theories/SerreOntoLaws.v
theories/P_SerreOnto.v
theories/SpecBrace.v
theories/BraceLaws.v
theories/P_Brace.v
theories/TorsLaws.v
theories/P_Tors.v
theories/IndepLaws.v
theories/P_Indep.v
theories/SpecTensor.v
theories/TensLaws.v
theories/P_Tens.v
theories/JoinAssoc.v
theories/P_JoinAssoc.v
theories/SpecCubNat.v
theories/CubNat.v
theories/P_CubNat.v
theories/HtpyLaws.v
theories/P_Htpy.v
theories/SpecCounit.v
theories/DiagHom.v
theories/CounitLaws.v
theories/P_Counit.v
theories/PerExact.v
theories/PerLaws.v
theories/P_Periodic.v
theories/SpecUniq.v
theories/PerUniq.v
theories/UniqLaws.v
theories/P_Uniq.v
