-Q theories Verif
theories/Common.v
theories/TopoModel.v
theories/BaseModel.v
theories/IndexSpec.v
theories/TopoSpec.v
theories/SmoothSpec.v
theories/IndexProofs.v
theories/IndexTopoProofs.v
theories/ListLemmas.v
theories/TopoProofs.v
theories/PointProofs.v
theories/MapperProofs.v
theories/CountProofs.v
theories/MatrixProofs.v
theories/HandlerProofs.v
theories/SmoothSpec2.v
theories/ResultProofs.v
theories/SmoothExamples.v
theories/GeometryProofs.v
theories/SmoothProofs.v
theories/Props_Index.v
theories/Props_Smooth.v
theories/ReparamModel.v
theories/ReparamSpec.v
theories/ReparamProofs.v
theories/ReparamProofs2.v
theories/ReparamProofs3.v
theories/Props_Reparam.v
theories/BaseModel2.v
theories/BaseSpec2.v
theories/BaseProofs2.v
theories/ExportProofs.v
theories/Props_Base.v
theories/RingModel.v
theories/RingSpec.v
theories/RingProofs.v
theories/RingProofs2.v
theories/RingProofs3.v
theories/RingInstance.v
theories/RingExamples.v
theories/Props_Ring.v
theories/PiModel.v
theories/PiSpec.v
theories/PiProofs.v
theories/Props_Pi.v
theories/TriangleModel.v
theories/TriangleSpec.v
theories/TriangleProofs.v
theories/Props_Triangle.v
theories/RefModel.v
theories/RefSpec.v
theories/RefProofs.v
theories/RefExamples.v
theories/RefProofs2.v
theories/Props_Ref.v
theories/SurfaceSpec.v
theories/SurfaceProofs.v
theories/Props_Surface.v
theories/C1Model.v
theories/C1Spec.v
theories/C1Proofs.v
theories/C1Examples.v
theories/Props_C1.v
theories/ContainerModel.v
theories/ContainerSpec.v
theories/ContainerProofs.v
theories/ContainerExamples.v
theories/Props_Container.v
theories/MapModel.v
theories/MapSpec.v
theories/MapProofs.v
theories/MapRegions.v
theories/MapExamples.v
theories/Props_Map.v
theories/MapTravelSpec.v
theories/MapTravel.v
theories/MapLines.v
theories/MapActions.v
theories/MapTravelExamples.v
theories/Props_MapTravel.v
theories/IfaceIndexSpec.v
theories/IfaceIndexProofs.v
theories/Props_IfaceIndex.v
theories/VertexModel.v
theories/VertexSpec.v
theories/VertexProofs.v
theories/VertexProofs2.v
theories/VertexProofs3.v
theories/VertexExamples.v
theories/Props_Vertex.v
theories/ConnModel.v
theories/ConnSpec.v
theories/ConnProofs.v
theories/Props_Conn.v
theories/RepairModel.v
theories/RepairSpec.v
theories/RepairProofs.v
theories/RepairProofs2.v
theories/RepairProofs3.v
theories/RepairExamples.v
theories/Props_Repair.v
theories/SplineModel.v
theories/SplineSpec.v
theories/SplineProofs.v
theories/GluingModel.v
theories/GluingSpec.v
theories/GluingProofs.v
theories/GluingExamples.v
theories/Props_Gluing.v
theories/RotModel.v
theories/RotSpec.v
theories/RotProofs.v
theories/Props_Rot.v
theories/VfunModel.v
theories/VfunSpec.v
theories/VfunProofs.v
theories/VfunExamples.v
theories/Props_Vfun.v
theories/KnotProofs.v
theories/BoehmModel.v
theories/BoehmSpec.v
theories/KnotSmooth.v
theories/BoehmProofs.v
theories/BoehmProofs2.v
theories/BoehmExamples.v
theories/Props_Boehm.v
theories/SurfGDModel.v
theories/SurfGDSpec.v
theories/SurfGDProofs.v
theories/SurfGDProofs2.v
theories/SurfGDExamples.v
theories/Props_SurfGD.v
theories/SurfVModel.v
theories/SurfVSpec.v
theories/SurfVProofs.v
theories/SurfVExamples.v
theories/SelectModel.v
theories/SelectSpec.v
theories/SelectProofs.v
theories/Props_SurfV.v
theories/KernModel.v
theories/KernSpec.v
theories/KernProofs.v
theories/KernProofs2.v
theories/KernProofs3.v
theories/KernExamples.v
theories/Props_Kern.v
theories/SpaceModel.v
theories/SpaceSpec.v
theories/PolyProofs.v
theories/SpaceProofs.v
theories/SpaceProofs2.v
theories/SpaceProofs3.v
theories/SpaceProofs4.v
theories/Props_Space.v
theories/MapAllModel.v
theories/MapAllSpec.v
theories/MapAllLoc.v
theories/MapAllKind.v
theories/MapAllCols.v
theories/MapAllLines.v
theories/MapAllBlocks.v
theories/MapAllCorners.v
theories/MapAllProofs.v
theories/MapAllExamples.v
theories/Props_MapAll.v
theories/EvModel.v
theories/EvSpec.v
theories/EvWalk.v
theories/EvSteps.v
theories/EvProofs.v
theories/EvProofs2.v
theories/EvProofs3.v
theories/EvExamples.v
theories/Props_Ev.v
theories/HierModel.v
theories/HierSpec.v
theories/HierProofs.v
theories/HierExamples.v
theories/Props_Hier.v
theories/DpModel.v
theories/DpSpec.v
theories/DpProofs.v
theories/DpProofs2.v
theories/DpProofs3.v
theories/DpProofs4.v
theories/DpExamples.v
theories/Props_Dp.v
theories/AcModel.v
theories/AcSpec.v
theories/AcProofs.v
theories/AcProofs2.v
theories/AcProofs3.v
theories/AcProofs4.v
theories/AcExamples.v
theories/Props_Ac.v
theories/AcSpec2.v
theories/AcProofs5.v
theories/AcProofs6.v
theories/AcProofs7.v
theories/AcExamples2.v
theories/Props_Ac2.v
theories/PreModel.v
theories/PreSpec.v
theories/PreProofs.v
theories/PreExamples.v
theories/Props_Pre.v
theories/DpPreModel.v
theories/DpPreSpec.v
theories/DpPreProofs.v
theories/DpPreExamples.v
theories/Props_DpPre.v
theories/MrefModel.v
theories/MrefSpec.v
theories/MrefProofs.v
theories/MrefProofs2.v
theories/MrefProofs3.v
theories/MrefProofs4.v
theories/MrefProofs5.v
theories/MrefExamples.v
theories/Props_Mref.v
theories/DpEvModel.v
theories/DpEvSpec.v
theories/DpEvProofs.v
theories/DpEvProofs2.v
theories/DpEvTensor.v
theories/DpEvExamples.v
theories/Props_DpEv.v
theories/HbModel.v
theories/HbSpec.v
theories/HbProofs.v
theories/HbProofs2.v
theories/HbProofs3.v
theories/HbProofs4.v
theories/HbProofs5.v
theories/HbProofs6.v
theories/HbProofs7.v
theories/HbEndless.v
theories/HbExamples.v
theories/Props_Hb.v
theories/HbMapModel.v
theories/HbMapSpec.v
theories/HbMapIdx.v
theories/HbMapCols.v
theories/HbMapProofs.v
theories/HbMapConn.v
theories/HbMapExamples.v
theories/Props_HbMap.v
theories/HbDistModel.v
theories/HbDistSpec.v
theories/HbDistProofs.v
theories/HbDistExamples.v
theories/Props_HbDist.v
theories/AsmModel.v
theories/AsmSpec.v
theories/AsmProofs.v
theories/AsmProofs2.v
theories/AsmExamples.v
theories/Props_Asm.v
theories/HbCoefModel.v
theories/HbCoefSpec.v
theories/HbCoefProofs.v
theories/HbCoefExamples.v
theories/Props_HbCoef.v
theories/IfSpaceModel.v
theories/IfSpaceSpec.v
theories/IfSpaceProofs.v
theories/IfSpaceProofs2.v
theories/IfSpaceProofs3.v
theories/Props_IfSpace.v
theories/SigmaModel.v
theories/SigmaSpec.v
theories/SigmaProofs.v
theories/SigmaExamples.v
theories/Props_Sigma.v
theories/BSysModel.v
theories/BSysSpec.v
theories/BSysProofs.v
theories/BSysProofs2.v
theories/BSysExamples.v
theories/Props_BSys.v
theories/BihModel.v
theories/BihSpec.v
theories/BihProofs.v
theories/BihProofs2.v
theories/BihExamples.v
theories/Props_Bih.v
theories/EdgeModel.v
theories/EdgeSpec.v
theories/EdgeProofs.v
theories/EdgeProofs2.v
theories/EdgeExamples.v
theories/Props_Edge.v
theories/ThbModel.v
theories/ThbSpec.v
theories/ThbProofs.v
theories/ThbExamples.v
theories/Props_Thb.v
theories/ObjModel.v
theories/ObjSpec.v
theories/ObjProofs.v
theories/ObjExamples.v
theories/Props_Obj.v
theories/ProjModel.v
theories/ProjSpec.v
theories/ProjProofs.v
theories/ProjExamples.v
theories/Props_Proj.v
theories/InterpModel.v
theories/InterpSpec.v
theories/InterpProofs.v
theories/InterpExamples.v
theories/Props_Interp.v
theories/KindModel.v
theories/KindSpec.v
theories/KindProofs.v
theories/Props_Kind.v
theories/UtilModel.v
theories/UtilSpec.v
theories/UtilProofs.v
theories/Props_Util.v
theories/DeadModel.v
theories/DeadSpec.v
theories/DeadProofs.v
theories/Props_Dead.v
