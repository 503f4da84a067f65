{
 "FreeModuleLaws": {
  "imports": "PyBase Dict FreeModule Spec FreeModuleLaws",
  "out": "P_FreeModule"
 },
 "ClassFacts": {
  "imports": "PyBase Dict FreeModule Symmetric Simplicial Cubical Utils Surjection BarrattEccles Spec ClassFacts",
  "out": "P_Classes"
 },
 "HeapLaws": {
  "imports": "PyBase Dict FreeModule Spec Heap HeapLaws",
  "out": "P_Heap"
 },
 "SymmetricLaws": {
  "imports": "PyBase Dict FreeModule Symmetric Spec SymmetricLaws",
  "out": "P_Symmetric"
 },
 "RingLaws": {
  "imports": "PyBase Dict FreeModule Symmetric Spec RingLaws",
  "out": "P_Ring"
 },
 "SimplicialLaws": {
  "imports": "PyBase Dict FreeModule Symmetric Simplicial Spec SpecChain SimplicialLaws",
  "out": "P_Simplicial"
 },
 "CubicalLaws": {
  "imports": "PyBase Dict FreeModule Symmetric Simplicial Cubical Spec SpecChain SpecCube CubicalLaws",
  "out": "P_Cubical"
 },
 "BELaws": {
  "imports": "PyBase Dict FreeModule Symmetric Simplicial Utils Surjection BarrattEccles Spec SpecOperad BELaws",
  "out": "P_BE"
 },
 "BELaws2": {
  "imports": "PyBase Dict FreeModule Symmetric Simplicial Utils Surjection BarrattEccles Spec SpecOperad BELaws2",
  "out": "P_BE2"
 },
 "BELaws3": {
  "imports": "PyBase Dict FreeModule Symmetric Simplicial Utils Surjection BarrattEccles Spec SpecOperad BELaws3",
  "out": "P_BE3"
 },
 "BELaws4": {
  "imports": "PyBase Dict FreeModule Symmetric Simplicial Utils Surjection BarrattEccles Spec SpecOperad BELaws4",
  "out": "P_BE4"
 },
 "SurjLaws": {
  "imports": "PyBase Dict FreeModule Symmetric Simplicial Utils Surjection BarrattEccles Spec SpecChain SpecOperad SpecSurj SurjLaws",
  "out": "P_Surj"
 },
 "SurjLaws2": {
  "imports": "PyBase Dict FreeModule Symmetric Simplicial Utils Surjection BarrattEccles Spec SpecChain SpecOperad SpecSurj SurjLaws2",
  "out": "P_Surj2"
 },
 "SurjLaws3": {
  "imports": "PyBase Dict FreeModule Symmetric Simplicial Utils Surjection BarrattEccles Spec SpecChain SpecOperad SpecSurj SurjLaws3",
  "out": "P_Surj3"
 },
 "SurjLaws4": {
  "imports": "PyBase Dict FreeModule Symmetric Simplicial Utils Surjection BarrattEccles Spec SpecChain SpecOperad SpecSurj SurjLaws4",
  "out": "P_Surj4"
 },
 "UtilsLaws": {
  "imports": "PyBase Dict FreeModule Utils Spec SpecUtils UtilsLaws",
  "out": "P_Utils"
 },
 "UtilsLaws2": {
  "imports": "PyBase Dict FreeModule Utils Spec SpecUtils UtilsLaws2",
  "out": "P_Utils2"
 },
 "SurjLaws5": {
  "imports": "PyBase Dict FreeModule Symmetric Simplicial Utils Surjection BarrattEccles Spec SpecChain SpecOperad SpecSurj SurjLaws5",
  "out": "P_SurjMay"
 },
 "SteenrodLaws": {
  "imports": "PyBase Dict FreeModule Symmetric Simplicial Utils Surjection BarrattEccles Spec SpecChain SpecOperad SpecSurj SpecSteenrod SteenrodLaws",
  "out": "P_Steenrod"
 },
 "ZeroLaws": {
  "imports": "PyBase Dict FreeModule Symmetric Simplicial Cubical Utils Surjection BarrattEccles Spec SpecChain SpecCube SpecOperad SpecSurj ZeroLaws",
  "out": "P_Zero"
 },
 "SurjLaws6": {
  "imports": "PyBase Dict FreeModule Symmetric Simplicial Utils Surjection Spec SpecChain SpecOperad SpecSurj SurjLaws6",
  "out": "P_SurjCompose"
 },
 "TableLaws": {
  "imports": "PyBase Dict FreeModule Symmetric Simplicial Utils Surjection BarrattEccles Spec SpecChain SpecOperad SpecSurj TableLaws",
  "out": "P_Table"
 },
 "SuspLaws": {
  "imports": "PyBase Dict FreeModule Symmetric Simplicial Utils Surjection BarrattEccles Spec SpecChain SpecOperad SpecSurj SpecSusp SuspLaws",
  "out": "P_Susp"
 },
 "SuspLaws2": {
  "imports": "PyBase Dict FreeModule Symmetric Simplicial Utils Surjection BarrattEccles Spec SpecChain SpecOperad SpecSurj SpecSusp SuspLaws2",
  "out": "P_Susp2"
 },
 "ActLaws": {
  "imports": "PyBase Dict FreeModule Symmetric Simplicial Utils Surjection BarrattEccles Spec SpecChain SpecOperad SpecSurj SpecAction ActLaws",
  "out": "P_Act"
 },
 "CubActLaws": {
  "imports": "PyBase Dict FreeModule Symmetric Simplicial Cubical Utils Surjection BarrattEccles Spec SpecChain SpecOperad SpecSurj SpecAction SpecCube SpecCubAction CubActLaws",
  "out": "P_CubAct"
 },
 "EquivLaws": {
  "imports": "PyBase Dict FreeModule Symmetric Simplicial Utils Surjection BarrattEccles Spec SpecChain SpecOperad SpecSurj SpecAction EquivLaws",
  "out": "P_Equiv"
 },
 "StnLaws": {
  "imports": "PyBase Dict FreeModule Symmetric Simplicial Utils Surjection BarrattEccles Spec SpecChain SpecOperad SpecSurj SpecAction SpecCochain StnLaws",
  "out": "P_Stn"
 },
 "CpxLaws": {
  "imports": "PyBase Dict FreeModule Symmetric Simplicial Utils Surjection BarrattEccles Spec SpecChain SpecOperad SpecSurj CpxLaws",
  "out": "P_Cpx"
 },
 "OpActLaws": {
  "imports": "PyBase Dict FreeModule Symmetric Simplicial Cubical Utils Surjection Spec SpecChain SpecOperad SpecSurj SpecAction OpActLaws",
  "out": "P_OpAct"
 },
 "CompEquiv": {
  "imports": "PyBase Dict FreeModule Symmetric Simplicial Utils Surjection BarrattEccles Spec SpecChain SpecOperad SpecSurj CompEquiv",
  "out": "P_CompEquiv"
 },
 "PrintLaws": {
  "imports": "PyBase Dict FreeModule Symmetric Simplicial Cubical Surjection BarrattEccles Spec Printing SpecPrint PrintLaws",
  "out": "P_Print"
 },
 "AcyclicLaws": {
  "imports": "PyBase Dict FreeModule Symmetric Surjection BarrattEccles Spec SpecChain SpecOperad SpecSurj AcyclicLaws",
  "out": "P_Acyclic"
 },
 "StnCube": {
  "imports": "PyBase Dict FreeModule Symmetric Cubical Surjection Spec SpecChain SpecSurj SpecCube StnCube",
  "out": "P_StnCube"
 },
 "CubeLaws": {
  "imports": "PyBase Dict FreeModule Cubical Spec SpecChain SpecCube CubeLaws",
  "out": "P_Cube"
 },
 "AttrLaws": {
  "imports": "PyBase Dict FreeModule Symmetric Surjection BarrattEccles Spec SpecOperad SpecAttr FreeModuleFacts AttrLaws",
  "out": "P_Attr"
 },
 "GroupLaws": {
  "imports": "PyBase Dict FreeModule Symmetric Simplicial Cubical Surjection BarrattEccles GroupMul Spec SpecChain SpecOperad SpecSurj SpecCube GroupLaws",
  "out": "P_Group"
 },
 "SteenrodClass": {
  "imports": "PyBase Dict FreeModule Symmetric Simplicial Utils Surjection BarrattEccles Spec SpecChain SpecOperad SpecSurj SpecAction SpecCochain SteenrodClass",
  "out": "P_StnClass"
 },
 "CupILaws": {
  "imports": "PyBase Dict FreeModule Symmetric Simplicial Utils Surjection BarrattEccles Spec SpecChain SpecOperad SpecSurj SpecAction SpecCochain SpecCup CupILaws",
  "out": "P_Cup"
 },
 "CartanLaws": {
  "imports": "PyBase Dict FreeModule Symmetric Simplicial Cubical Utils Surjection Spec SpecChain SpecOperad SpecSurj SpecAction SpecCube SpecCubAction SpecCartan CartanLaws",
  "out": "P_Cartan"
 },
 "CubCupLaws": {
  "imports": "PyBase Dict FreeModule Symmetric Simplicial Cubical Utils Surjection Spec SpecChain SpecOperad SpecSurj SpecAction SpecCube SpecCubAction SpecCup SpecCubCup CubCupLaws",
  "out": "P_CubCup"
 },
 "DimLaws": {
  "imports": "PyBase Dict FreeModule Simplicial Heap SimpDim Spec DimLaws",
  "out": "P_Dim"
 },
 "SimpCupLaws": {
  "imports": "PyBase Dict FreeModule Symmetric Simplicial Utils Surjection Spec SpecChain SpecOperad SpecSurj SpecAction SpecCochain SpecSimpCup SimpCupLaws",
  "out": "P_SimpCup"
 },
 "TableMay": {
  "imports": "PyBase Dict FreeModule Symmetric Simplicial Utils Surjection BarrattEccles Spec SpecChain SpecOperad SpecSurj SpecSteenrod TableMay",
  "out": "P_TableMay"
 },
 "BEComplexity": {
  "imports": "PyBase Dict FreeModule Symmetric Simplicial Utils Surjection BarrattEccles Spec SpecChain SpecOperad SpecSurj BEComplexity",
  "out": "P_BEComplexity"
 },
 "SqLaws": {
  "imports": "PyBase Dict FreeModule Symmetric Simplicial Utils Surjection Spec SpecChain SpecOperad SpecSurj SpecAction SpecCochain SpecSimpCup SpecSquares SqLaws",
  "out": "P_Sq"
 },
 "CupAlgLaws": {
  "imports": "PyBase Dict FreeModule Symmetric Simplicial Spec SpecChain SpecCochain SpecSimpCup SpecCupAlg CupAlgLaws",
  "out": "P_CupAlg"
 },
 "NatLaws": {
  "imports": "PyBase Dict FreeModule Symmetric Simplicial Utils Surjection Spec SpecChain SpecOperad SpecSurj SpecCochain SpecSimpCup SpecSquares SpecCupAlg SpecNat NatLaws",
  "out": "P_Nat"
 },
 "BockLaws": {
  "imports": "PyBase Dict FreeModule Symmetric Simplicial Utils Surjection BarrattEccles Spec SpecChain SpecOperad SpecSurj SpecAction SpecCochain SpecBock BockLaws",
  "out": "P_Bock"
 },
 "P0Laws": {
  "imports": "PyBase Dict FreeModule Symmetric Simplicial Utils Surjection BarrattEccles Spec SpecChain SpecOperad SpecSurj SpecAction SpecSteenrod SpecCochain P0Laws",
  "out": "P_PZero"
 },
 "StableLaws": {
  "imports": "PyBase Dict FreeModule Symmetric Simplicial Utils Surjection BarrattEccles Spec SpecChain SpecOperad SpecSurj SpecAction SpecSteenrod SpecCochain SpecSimpCup StableLaws",
  "out": "P_Stable"
 },
 "StableCubLaws": {
  "imports": "PyBase Dict FreeModule Symmetric Simplicial Cubical Utils Surjection Spec SpecChain SpecOperad SpecSurj SpecAction SpecCube SpecCubAction SpecCup SpecCubCup StableCubLaws",
  "out": "P_StableCub"
 },
 "InhLaws": {
  "imports": "PyBase Dict FreeModule Symmetric Simplicial Cubical Surjection BarrattEccles Inherited Eqm Spec FreeModuleFacts FreeModuleLaws InhLaws",
  "out": "P_Inherited"
 },
 "ReprLaws": {
  "imports": "PyBase Dict FreeModule Symmetric Simplicial Cubical Surjection BarrattEccles Spec FreeModuleFacts Printing SpecPrint Inherited InhLaws Repr SpecRepr ReprLaws",
  "out": "P_Repr"
 },
 "AdemLaws": {
  "imports": "PyBase Dict FreeModule Symmetric Simplicial Utils Surjection Spec SpecChain SpecOperad SpecSurj SpecAction SpecCochain SpecSimpCup SpecSquares SpecAdem AdemLaws",
  "out": "P_Adem"
 },
 "ObjLaws": {
  "imports": "PyBase Dict FreeModule Symmetric Simplicial Cubical Utils Surjection BarrattEccles GroupMul Heap HeapApi World SpecObjects ObjLaws",
  "out": "P_Obj"
 },
 "HopfLaws": {
  "imports": "PyBase Dict FreeModule Symmetric Simplicial Utils Surjection BarrattEccles GroupMul Spec SpecOperad SpecHopf HopfLaws",
  "out": "P_Hopf"
 },
 "MixedLaws": {
  "imports": "PyBase Dict FreeModule Symmetric Simplicial Cubical Utils Surjection BarrattEccles GroupMul Heap World Spec SpecObjects SpecMixed MixedLaws",
  "out": "P_Mixed"
 },
 "ProductLaws": {
  "imports": "PyBase Dict FreeModule Symmetric Simplicial Cubical Utils Surjection BarrattEccles GroupMul Spec SpecOperad SpecSurj ProductLaws",
  "out": "P_Product"
 },
 "TableOnto": {
  "imports": "PyBase Dict FreeModule Symmetric Simplicial Utils Surjection BarrattEccles Spec SpecChain SpecOperad SpecSurj TableOnto",
  "out": "P_TableOnto"
 },
 "CongLaws": {
  "imports": "PyBase Dict FreeModule Symmetric Simplicial Cubical Utils Surjection BarrattEccles Spec SpecChain SpecOperad SpecSurj SpecAction SpecCube SpecCubAction SpecSusp SpecCong CongLaws",
  "out": "P_Cong"
 },
 "InhAdd": {
  "imports": "PyBase Dict FreeModule Symmetric Simplicial Cubical Surjection BarrattEccles Inherited Eqm Spec FreeModuleFacts FreeModuleLaws InhLaws InhAdd",
  "out": "P_InhAdd"
 },
 "ArgsLaws": {
  "imports": "PyBase Dict FreeModule Symmetric Simplicial Cubical Surjection Spec SpecChain SpecCube SpecSurj SpecArgs FreeModuleFacts ArgsLaws",
  "out": "P_Args"
 },
 "ArityTwoLaws": {
  "imports": "PyBase Dict FreeModule Symmetric Surjection BarrattEccles Spec SpecChain SpecOperad SpecSurj SpecCup ArityTwoLaws",
  "out": "P_ArityTwo"
 },
 "ArityTwoBELaws": {
  "imports": "PyBase Dict FreeModule Symmetric Surjection BarrattEccles Spec SpecChain SpecOperad SpecSurj SpecCup ArityTwoBELaws",
  "out": "P_ArityTwoBE"
 },
 "ConeLaws": {
  "imports": "PyBase Dict FreeModule Simplicial Cubical Spec SpecChain SpecCube SpecCone ConeLaws",
  "out": "P_Cone"
 },
 "HirschLaws": {
  "imports": "PyBase Dict FreeModule Symmetric Simplicial Surjection Spec SpecChain SpecCochain SpecSimpCup SpecCupAlg SpecHirsch HirschLaws",
  "out": "P_Hirsch"
 },
 "CupiLaws": {
  "imports": "PyBase Dict FreeModule Symmetric Simplicial Surjection Spec SpecChain SpecCochain SpecSimpCup SpecCup SpecCupAlg SpecHirsch SpecCupi CupiLaws",
  "out": "P_Cupi"
 },
 "SerreOntoLaws": {
  "imports": "PyBase Dict FreeModule Simplicial Cubical Spec SpecChain SpecCube SpecCone SerreOntoLaws",
  "out": "P_SerreOnto"
 },
 "BraceLaws": {
  "imports": "PyBase Dict FreeModule Symmetric Surjection GroupMul Spec SpecChain SpecOperad SpecSurj SpecBrace BraceLaws",
  "out": "P_Brace"
 },
 "TorsLaws": {
  "imports": "PyBase Dict FreeModule Symmetric Simplicial Cubical Utils Surjection BarrattEccles Spec SpecChain SpecOperad SpecSurj SpecAction SpecCube SpecCubAction SpecSusp SpecCong TorsLaws",
  "out": "P_Tors"
 },
 "IndepLaws": {
  "imports": "PyBase Dict FreeModule Symmetric Simplicial Cubical Utils Surjection Spec SpecChain SpecOperad SpecSurj SpecAction SpecCube SpecCubAction IndepLaws",
  "out": "P_Indep"
 },
 "TensLaws": {
  "imports": "PyBase Dict FreeModule Symmetric Simplicial Cubical Utils Surjection Spec SpecChain SpecOperad SpecSurj SpecAction SpecCube SpecCubAction SpecTensor TensLaws",
  "out": "P_Tens"
 },
 "JoinAssoc": {
  "imports": "PyBase Dict FreeModule Symmetric Simplicial Cubical Utils Surjection Spec SpecChain SpecOperad SpecSurj SpecAction SpecCube SpecCubAction SpecTensor JoinAssoc",
  "out": "P_JoinAssoc"
 },
 "CubNat": {
  "imports": "PyBase Dict FreeModule Symmetric Simplicial Cubical Utils Surjection Spec SpecChain SpecOperad SpecSurj SpecAction SpecCube SpecCubAction SpecCubCup SpecCubNat CubNat",
  "out": "P_CubNat"
 },
 "HtpyLaws": {
  "imports": "PyBase Dict FreeModule Symmetric Simplicial Cubical Utils Surjection Spec SpecChain SpecOperad SpecSurj SpecAction SpecCube SpecCubAction HtpyLaws",
  "out": "P_Htpy"
 },
 "CounitLaws": {
  "imports": "PyBase Dict FreeModule Simplicial Cubical Spec SpecChain SpecCube SpecCone SpecArgs SpecCounit CounitLaws",
  "out": "P_Counit"
 },
 "PerLaws": {
  "imports": "PyBase Dict FreeModule Symmetric Surjection BarrattEccles Spec SpecOperad SpecSurj PerLaws",
  "out": "P_Periodic"
 },
 "UniqLaws": {
  "imports": "PyBase Dict FreeModule Symmetric Surjection BarrattEccles Spec SpecOperad SpecSurj SpecUniq UniqLaws",
  "out": "P_Uniq"
 }
}