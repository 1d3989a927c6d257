-Q theories Verif
theories/Base.v
theories/BernPoly.v
theories/BezierTestModel.v
theories/BezierTestProofs.v
theories/BlendProofs.v
theories/BlendProps.v
theories/ChainModel.v
theories/ChainProofs.v
theories/ChainSpec.v
theories/ClassAModel.v
theories/ClassAProofs.v
theories/CommandModel.v
theories/CommandProofs.v
theories/ContPatch.v
theories/ContProofs.v
theories/ContSpec.v
theories/DomainAngularWitness.v
theories/DomainCache.v
theories/DomainModel.v
theories/DomainPolygons.v
theories/DomainProofs.v
theories/DriverMesh.v
theories/DriverModel.v
theories/DriverProofs.v
theories/ElasticModel.v
theories/ElasticProofs.v
theories/FEMBiharm.v
theories/FEMPatch.v
theories/FEMPatch2.v
theories/FEMProofs.v
theories/FEMSolve.v
theories/FEMSpec.v
theories/FEMVoronoi.v
theories/FenceProofs.v
theories/FenceSpec.v
theories/FlatProofs.v
theories/FlatSpec.v
theories/FourElev.v
theories/FourFit.v
theories/FourProofs.v
theories/FourProofs2.v
theories/FourProofs3.v
theories/FourSpec.v
theories/GBContact.v
theories/GBContact2.v
theories/GBElev.v
theories/GBEnum.v
theories/GBEval.v
theories/GBEval2.v
theories/GBFitModel.v
theories/GBFitProofs.v
theories/GBFitSmooth.v
theories/GBFitTotal.v
theories/GBModel.v
theories/GBParamModel.v
theories/GBProofs.v
theories/GBSpec.v
theories/GeomSpec.v
theories/HarmonicModel.v
theories/HybridModel.v
theories/HybridProofs.v
theories/JoinModel.v
theories/JoinProofs.v
theories/JoinSpec.v
theories/LeastSquares.v
theories/LinAlg.v
theories/LinSolve.v
theories/MeshEdge.v
theories/MeshGeom.v
theories/MeshGeom2.v
theories/MeshModel.v
theories/MeshParams.v
theories/MeshProofs.v
theories/MeshProofs4.v
theories/MeshProofsRing.v
theories/MeshSpec.v
theories/MeshSqrt.v
theories/MirDomains.v
theories/MirGB.v
theories/MirParam.v
theories/MirProofs.v
theories/MirSpec.v
theories/MoveLine.v
theories/MovePatches.v
theories/MovePatches2.v
theories/MoveProofs.v
theories/MoveSpec.v
theories/NMModel.v
theories/NMProofs.v
theories/ObjLinks.v
theories/ObjLoop.v
theories/ObjProofs.v
theories/ObjSides.v
theories/ObjSpec.v
theories/ObjUpdate.v
theories/ParamBary.v
theories/ParamCache.v
theories/ParamCircular.v
theories/ParamFar.v
theories/ParamFar2.v
theories/ParamMaps.v
theories/ParamModel.v
theories/ParamRegular.v
theories/ParamSide.v
theories/ParamTame.v
theories/PatchContact.v
theories/PatchContact2.v
theories/PolarDefined.v
theories/PolarModel.v
theories/PolarPatchModel.v
theories/PolarPatchProofs.v
theories/PolarProofs.v
theories/PropsBezierTest.v
theories/PropsBlend.v
theories/PropsChain.v
theories/PropsCircle.v
theories/PropsClassA.v
theories/PropsCommand.v
theories/PropsCommand2.v
theories/PropsCont.v
theories/PropsCont2.v
theories/PropsContact.v
theories/PropsCorner.v
theories/PropsDomain.v
theories/PropsDriver.v
theories/PropsDriver2.v
theories/PropsElastic.v
theories/PropsFEM.v
theories/PropsFence.v
theories/PropsFlat.v
theories/PropsFour.v
theories/PropsFourElev.v
theories/PropsFourFit.v
theories/PropsGB.v
theories/PropsGB2.v
theories/PropsGBContact.v
theories/PropsGBFit.v
theories/PropsGBParam.v
theories/PropsGeom.v
theories/PropsHybrid.v
theories/PropsInside.v
theories/PropsJoin.v
theories/PropsJoinKinds.v
theories/PropsMesh.v
theories/PropsMir.v
theories/PropsMirGB.v
theories/PropsMove.v
theories/PropsNM.v
theories/PropsObjects.v
theories/PropsObjects2.v
theories/PropsOverlap.v
theories/PropsParam.v
theories/PropsPatchContact.v
theories/PropsPolar.v
theories/PropsPolarPatch.v
theories/PropsReader.v
theories/PropsRibbon.v
theories/PropsRot.v
theories/PropsRound.v
theories/PropsRun.v
theories/PropsSPatch.v
theories/PropsStab.v
theories/PropsStab2.v
theories/PropsStep.v
theories/PropsSuperD.v
theories/PropsSurface.v
theories/PropsTotal.v
theories/PropsUtil.v
theories/ReaderModel.v
theories/ReaderProofs.v
theories/RibbonModel.v
theories/RibbonNSided.v
theories/RibbonProofs.v
theories/RibbonSpec.v
theories/RotDomains.v
theories/RotMotion.v
theories/RotParam.v
theories/RotPatches.v
theories/RotPatches2.v
theories/RotProofs.v
theories/RotSpec.v
theories/RoundModel.v
theories/RoundProofs.v
theories/RoundProofs2.v
theories/RoundProofs3.v
theories/RoundProofs4.v
theories/RoundSpec.v
theories/RunModel.v
theories/RunProofs.v
theories/SPatchModel.v
theories/SPatchProofs.v
theories/StabProofs.v
theories/StabSpec.v
theories/StepSpec.v
theories/SuperDModel.v
theories/SuperDProofs.v
theories/SurfaceBase.v
theories/SurfaceC0.v
theories/SurfaceCentre.v
theories/SurfaceEval.v
theories/SurfaceModel.v
theories/SurfaceObj.v
theories/SurfacePatches.v
theories/SurfaceProofs.v
theories/SurfaceSide.v
theories/SurfaceSpec.v
theories/TotalProofs.v
theories/TotalSpec.v
theories/UtilModel.v
theories/UtilProofs.v
theories/UtilSpec.v
