-Q theories Verif
theories/Base.v
theories/QTreeModel.v
theories/QTreeSpec.v
theories/QTreeProofs.v
theories/QTreeCont.v
theories/QTreeMore.v
theories/QTreeProps.v
theories/Chain.v
theories/GeomModel.v
theories/GeomSpec.v
theories/GeomProofs.v
theories/FacetModel.v
theories/FacetProofs.v
theories/UtilModel.v
theories/UtilProofs.v
theories/GeomProps.v
theories/BdryModel.v
theories/BdrySpec.v
theories/BdryProofs.v
theories/InsideSpec.v
theories/InsideProofs.v
theories/DomainProofs.v
theories/BdryProps.v
theories/SizeModel.v
theories/SizeProofs.v
theories/SizeProps.v
theories/CsvModel.v
theories/CsvProofs.v
theories/CsvProps.v
theories/AdvanceModel.v
theories/AdvanceSpec.v
theories/AdvanceProofs.v
theories/AdvanceInv.v
theories/AdvanceMore.v
theories/AdvanceGeom.v
theories/AdvanceProps.v
theories/LoopModel.v
theories/LoopSpec.v
theories/LoopProofs.v
theories/LoopProps.v
theories/FrontModel.v
theories/FrontSpec.v
theories/FrontProofs.v
theories/RefineProofs.v
theories/InitProofs.v
theories/SubProofs.v
theories/FrontProps.v
theories/MeshModel.v
theories/MeshSpec.v
theories/MeshProofs.v
theories/MeshCheck.v
theories/MeshProps.v
theories/QRefineModel.v
theories/QRefineSpec.v
theories/QRefineProofs.v
theories/QRefineShape.v
theories/QRefineConf.v
theories/QRefineProps.v
theories/CleanSpec.v
theories/CleanModel.v
theories/MergeProofs.v
theories/CleanProofs.v
theories/CleanPass.v
theories/CleanScan.v
theories/DegenProofs.v
theories/DegenPass.v
theories/CleanCheck.v
theories/CleanProps.v
theories/T2QModel.v
theories/T2QSpec.v
theories/T2QProofs.v
theories/T2QProps.v
theories/MergerModel.v
theories/MergerSpec.v
theories/GlueProofs.v
theories/MergerCopy.v
theories/MergerProofs.v
theories/MergerMain.v
theories/MergerProps.v
theories/SmoothModel.v
theories/SmoothSpec.v
theories/SmoothProofs.v
theories/SmoothProps.v
theories/QLayerModel.v
theories/QLayerSpec.v
theories/QLayerProofs.v
theories/QLayerProps.v
theories/CheckModel.v
theories/CheckSpec.v
theories/CheckProps.v
theories/GenModel.v
theories/GenSpec.v
theories/GenProps.v
theories/ParaModel.v
theories/ParaSpec.v
theories/ParaProofs.v
theories/ParaMatrix.v
theories/ParaProps.v
theories/AppModel.v
theories/AppProps.v
theories/ColourModel.v
theories/ColourProps.v
theories/WindSpec.v
theories/WindProofs.v
theories/WindFront.v
theories/WindMesh.v
theories/WindProps.v
theories/WindMeshProps.v
theories/WindInside.v
theories/WindInsideProps.v
theories/AppRunModel.v
theories/AppRunSpec.v
theories/AppRunProps.v
theories/OutModel.v
theories/OutSpec.v
theories/OutProofs.v
theories/OutProps.v
theories/QTileSpec.v
theories/QTileProofs.v
theories/QTileSetup.v
theories/QTileProps.v
theories/PolySpec.v
theories/PolyCorner.v
theories/PolyProofs.v
theories/PolyArea.v
theories/PolyMain.v
theories/PolyProps.v
theories/ClearSpec.v
theories/ClearGeom.v
theories/ClearWind.v
theories/ClearNest.v
theories/ClearStep.v
theories/ClearRun.v
theories/ClearStart.v
theories/ClearEnd.v
theories/ClearDomain.v
theories/ClearProps.v
theories/DomCheckModel.v
theories/DomCheckSpec.v
theories/DomCheckProofs.v
theories/DomCheckProps.v
theories/FoamModel.v
theories/FoamSpec.v
theories/FoamProofs.v
theories/FoamRead.v
theories/FoamMesh.v
theories/FoamPatch.v
theories/FoamProps.v
theories/FanProofs.v
theories/FinModel.v
theories/FinProofs.v
theories/FinMesh.v
theories/FinPipe.v
theories/FinProps.v
theories/TwinModel.v
theories/TwinSpec.v
theories/TwinProofs.v
theories/TwinMain.v
theories/TwinMesh.v
theories/TwinGen.v
theories/TwinProps.v
theories/MixSpec.v
theories/MixShape.v
theories/MixRun.v
theories/ContModel.v
theories/OpenConn.v
theories/ContSpec.v
theories/ContProofs.v
theories/ContMesh.v
theories/ContStage.v
theories/ContEnd.v
theories/ContRun.v
theories/ContProps.v
theories/ShapeModel.v
theories/ShapeSpec.v
theories/ConvexProofs.v
theories/CircProofs.v
theories/ShapeProofs.v
theories/ShapeProps.v
theories/DomInModel.v
theories/DomInSpec.v
theories/DomInProofs.v
theories/DomInBuild.v
theories/PlateSpec.v
theories/PlateProofs.v
theories/DomInProps.v
theories/NearRange.v
theories/EndSpec.v
theories/EndClean.v
theories/EndProofs.v
theories/EndProps.v
theories/SpringSpec.v
theories/SpringProofs.v
theories/SpringProps.v
theories/FileModel.v
theories/FileSpec.v
theories/FileProofs.v
theories/FileBuild.v
theories/FileCheck.v
theories/FileExamples.v
theories/FileWords.v
theories/FileProps.v
theories/FileMeshProps.v
theories/LayRun.v
theories/LayWay.v
theories/LayGap.v
theories/LayNeat.v
theories/LayModel.v
theories/LaySpec.v
theories/LayLayers.v
theories/LayStage.v
theories/LayProps.v
theories/ExtentModel.v
theories/ExtentSpec.v
theories/ExtentProofs.v
theories/ExtentBuild.v
theories/ExtentProps.v
theories/VecModel.v
theories/VecSpec.v
theories/VecProofs.v
theories/VecProps.v
theories/AngleModel.v
theories/AngleSpec.v
theories/AngleProofs.v
theories/AngleProps.v
theories/EditModel.v
theories/EditSpec.v
theories/EditProofs.v
theories/EditRead.v
theories/EditEffect.v
theories/EditProps.v
theories/OverlapModel.v
theories/OverlapSpec.v
theories/OverlapProofs.v
theories/OverlapEnd.v
theories/OverlapProps.v
theories/NearModel.v
theories/NearSpec.v
theories/NearProofs.v
theories/NearProps.v
theories/ToolModel.v
theories/ToolSpec.v
theories/ToolProofs.v
theories/ToolProps.v
