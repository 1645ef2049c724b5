-Q theories Verif
theories/Base.v
theories/Float.v
theories/SpecFloat64.v
theories/Geometry.v
theories/Sweep.v
theories/Contours.v
theories/SpecShape.v
theories/SpecOrder.v
theories/Compute.v
theories/SpecIntersect.v
theories/SpecHandle.v
theories/SpecTidy.v
theories/Nom.v
theories/ParseWad.v
theories/ArchiveWad.v
theories/ParseMap.v
theories/MapModel.v
theories/SectorPolys.v
theories/SpecBytes.v
theories/ParseTexturex.v
theories/SpecLumps.v
theories/SpecMapModel.v
theories/SpecSector.v
theories/SpecTurn.v
theories/SpecOverlay.v
theories/SpecFollow.v
theories/SpecCompute.v
theories/BaseFacts.v
theories/FloatFacts.v
theories/FloatOrder.v
theories/MapFacts.v
theories/ShapeFacts.v
theories/SpecContainers.v
theories/OrderFacts.v
theories/TidyGeo.v
theories/RealFacts.v
theories/RealFacts2.v
theories/IntersectFacts.v
theories/TurnFacts.v
theories/TurnFacts2.v
theories/TurnFacts3.v
theories/SectorFacts.v
theories/LoopFacts.v
theories/MapSectorFacts.v
theories/StdRef.v
theories/ShapeSamples.v
theories/TurnSamples.v
theories/TidyParity.v
theories/TidySetup.v
theories/ContainerFacts.v
theories/TidyLine.v
theories/CrossingFacts.v
theories/InLineFacts.v
theories/HandleFacts.v
theories/TidyPackets.v
theories/TidySweep.v
theories/SweepFacts.v
theories/OrientFacts.v
theories/TraceFacts.v
theories/FuelFacts.v
theories/StdFacts.v
theories/Route.v
theories/Actors.v
theories/Chart.v
theories/RouteDraw.v
theories/SortFacts.v
theories/TidyStart.v
theories/TidyFacts.v
theories/TidyCorner.v
theories/TidyPair.v
theories/TidyNext.v
theories/ComputeFacts.v
theories/TidyWalk.v
theories/TidyTrace.v
theories/TidyContours.v
theories/TidyWinding.v
theories/TidySimple.v
theories/TidyArea.v
theories/TidyCover.v
theories/TidyShapes.v
theories/TidyOverlay.v
theories/TidyFamily.v
theories/TidyRegions.v
theories/TidyBorders.v
theories/OverlayFacts.v
theories/HoleOrder.v
theories/FollowLines.v
theories/FollowFacts.v
theories/TidySamples.v
theories/CrossGeo.v
theories/SpecCross.v
theories/CrossPieces.v
theories/OverlaySamples.v
theories/FollowSamples.v
theories/CrossSamples.v
theories/CrossMeet.v
theories/CrossCore.v
theories/CrossSplit.v
theories/CrossResolve.v
theories/CrossPair.v
theories/CrossLeft.v
theories/CrossStep.v
theories/CrossRight.v
theories/CrossNext.v
theories/CrossLoop.v
theories/CrossTrace.v
theories/CrossSetup.v
theories/CrossStart.v
theories/CrossOverlay.v
theories/CrossCover.v
theories/WindArea.v
theories/NomFacts.v
theories/SpecWad.v
theories/WadFacts.v
theories/Universe.v
theories/TurnFacts4.v
theories/TurnFacts5.v
theories/SpecBox.v
theories/BoxFacts.v
theories/TouchFacts.v
theories/SpecMapName.v
theories/MapNameFacts.v
theories/SpecArchive.v
theories/EncodeFacts.v
theories/LumpFacts.v
theories/SpecTexturex.v
theories/TexturexFacts.v
theories/ArchiveFacts.v
theories/IterFacts.v
theories/ToArchiveFacts.v
theories/CountTextures.v
theories/SpecTextures.v
theories/TextureFacts.v
theories/SpecFlip.v
theories/Samples.v
theories/TextureAux.v
theories/SpecSplit.v
theories/SplitSamples.v
theories/SplitFacts.v
theories/SpecGrid.v
theories/SpecSlope.v
theories/SpecSkew.v
theories/SpecRoute.v
theories/SpecChart.v
theories/SpecRouteDraw.v
theories/SpecRooms.v
theories/SpecReorder.v
theories/SpecRects.v
theories/Info.v
theories/Demo.v
theories/Flip.v
theories/Program.v
theories/SpecProgram.v
theories/SpecParts.v
theories/SpecParent.v
theories/SpecMove.v
theories/SpecMesh.v
theories/SpecMap.v
theories/SpecJoin.v
theories/SpecInfo.v
theories/SpecHoles.v
theories/SpecFill.v
theories/SpecDemo.v
theories/SpecCrossMap.v
theories/SpecCopies.v
theories/SpecBeside.v
theories/SpecArea.v
theories/SpecAgain.v
theories/GridFloat.v
theories/GridRatio.v
theories/GridFacts.v
theories/GridCut.v
theories/GridSamples.v
theories/SlopeFacts.v
theories/ParentFacts.v
theories/AgainSide.v
theories/NestGeo.v
theories/NestPlace.v
theories/AgainEdges.v
theories/AgainFacts.v
theories/AgainOver.v
theories/CrossAgain.v
theories/SlopeCut.v
theories/SlopeSamples.v
theories/GridLines.v
theories/MeshTrack.v
theories/MeshCut.v
theories/GridRects.v
theories/PartsArea.v
theories/MeshSamples.v
theories/SkewSamples.v
theories/SkewGeo.v
theories/SkewFacts.v
theories/SingleFacts.v
theories/SectorSamples.v
theories/RouteSamples.v
theories/FillFacts.v
theories/RouteRefuted.v
theories/LumpFacts2.v
theories/ParseMapFacts.v
theories/FlipFacts.v
theories/HolesFacts.v
theories/DilateFacts.v
theories/ChartFacts.v
theories/RouteDrawFacts.v
theories/RouteHueFacts.v
theories/RouteDrawSamples.v
theories/PropsArchiveAux.v
theories/ChartBareFacts.v
theories/ChartCommandFacts.v
theories/RouteCommandFacts.v
theories/RouteDrawRefuted.v
theories/RoomSamples.v
theories/RoomFacts.v
theories/RoomFacts2.v
theories/RoomFacts3.v
theories/RepoTests.v
theories/RectSamples.v
theories/ReorderSamples.v
theories/RemovedFacts.v
theories/RefutedFacts.v
theories/RectsOrder.v
theories/RectangleFacts.v
theories/PropsWadAux.v
theories/PropsWad.v
theories/PropsTurn.v
theories/CornerTouch.v
theories/PropsTouch.v
theories/PropsTidy.v
theories/PropsTextures.v
theories/PieceFacts.v
theories/PropsSplit.v
theories/PropsSort.v
theories/PropsSlope.v
theories/BesideGeo.v
theories/MoveGeo.v
theories/MoveFacts.v
theories/BesideFacts.v
theories/MeshBeside.v
theories/MeshSkew.v
theories/PropsSkew.v
theories/PropsShape.v
theories/PropsSectors.v
theories/PropsRouteDraw.v
theories/PropsRoute.v
theories/PropsRooms.v
theories/PropsReorder.v
theories/PropsRemoved.v
theories/PropsRects.v
theories/PropsRectangles.v
theories/ProgramFacts.v
theories/PropsProgram.v
theories/PartsSamples.v
theories/PropsParts.v
theories/PropsParent.v
theories/PropsOverlay.v
theories/MovedPanic.v
theories/PropsMoved.v
theories/MeshMove.v
theories/MoveSamples.v
theories/PropsMove.v
theories/MeshOrder.v
theories/PropsMeshOrder.v
theories/PropsMesh.v
theories/PropsMapName.v
theories/PropsMap.v
theories/PropsLumpsAux.v
theories/PropsLumps.v
theories/BesideSamples.v
theories/JoinFacts.v
theories/JoinSamples.v
theories/PropsJoin.v
theories/PropsIntersect.v
theories/InfoFacts.v
theories/InfoSamples.v
theories/InfoRefuted.v
theories/PropsInfo.v
theories/HolesSamples.v
theories/NestSweep.v
theories/NestHoles.v
theories/NestFacts.v
theories/PropsHoles.v
theories/AgainSamples.v
theories/CrossHoles.v
theories/PropsHoled.v
theories/GridLimit.v
theories/PropsGrid.v
theories/PropsFollow.v
theories/PropsFlip.v
theories/FillSamples.v
theories/LadderFacts.v
theories/FillPathFacts.v
theories/PropsFill.v
theories/EndlessFacts.v
theories/PropsEndless.v
theories/DemoFacts.v
theories/PropsDemo.v
theories/CrossMapSamples.v
theories/CrossRooms.v
theories/PropsCrossMap.v
theories/PropsCross.v
theories/CopyFacts.v
theories/CopySamples.v
theories/PropsCopies.v
theories/PropsCompute.v
theories/ChartSamples.v
theories/PropsChart.v
theories/PropsBeside.v
theories/PropsArea.v
theories/PropsArchive.v
theories/PropsAgain.v
