-Q theories Verif
theories/Base.v
theories/Containers.v
theories/SpecContainers.v
theories/ContainersProofs.v
theories/PropsContainers.v
theories/Mesh.v
theories/SpecMesh.v
theories/MeshProofs.v
theories/SwitchProofs.v
theories/RemoveProofs.v
theories/MergeProofs.v
theories/PropsMesh.v
theories/Flood.v
theories/SpecFlood.v
theories/FloodProofs.v
theories/BorderProofs.v
theories/CloseProofs.v
theories/PropsFlood.v
theories/Order.v
theories/SpecOrder.v
theories/OrderProofs.v
theories/OrderMeshProofs.v
theories/PropsOrder.v
theories/Edit.v
theories/SpecEdit.v
theories/ReorderProofs.v
theories/CropProofs.v
theories/EditProofs.v
theories/PropsEdit.v
theories/Num.v
theories/Snake.v
theories/SpecSnake.v
theories/SnakeProofs.v
theories/SnakeTimeProofs.v
theories/SnakeOrderProofs.v
theories/SnakeBlockProofs.v
theories/PropsSnake.v
theories/Voxel.v
theories/VoxelProofs.v
theories/FloatQuot.v
theories/FloatQuotProofs.v
theories/VoxelFaceProofs.v
theories/SpecVoxel.v
theories/PropsVoxel.v
theories/Geom.v
theories/SpecGeom.v
theories/CoordProofs.v
theories/GeomProofs.v
theories/CentreProofs.v
theories/ScaleProofs.v
theories/AnalysisProofs.v
theories/PropsGeom.v
theories/Codec.v
theories/SpecCodec.v
theories/CodecProofs.v
theories/DecimalProofs.v
theories/PropsCodec.v
theories/Fill.v
theories/SpecFill.v
theories/PropsFill.v
theories/Family.v
theories/SpecFamily.v
theories/FamilyProofs.v
theories/FamilyMapProofs.v
theories/PropsFamily.v
theories/MergeEdge.v
theories/SpecMergeEdge.v
theories/PropsMergeEdge.v
theories/Boundary.v
theories/SpecBoundary.v
theories/PropsBoundary.v
theories/Group.v
theories/SpecGroup.v
theories/GroupProofs.v
theories/GroupLinkProofs.v
theories/GroupMergeProofs.v
theories/PropsGroup.v
theories/Coarsen.v
theories/SpecCoarsen.v
theories/CoarsenProofs.v
theories/MappingProofs.v
theories/PropsCoarsen.v
theories/Config.v
theories/SpecConfig.v
theories/JsonProofs.v
theories/JsonBuildProofs.v
theories/ConfigTreeProofs.v
theories/ConfigProofs.v
theories/ConfigReadProofs.v
theories/ConfigPartialProofs.v
theories/ConfigStringProofs.v
theories/PropsConfig.v
theories/RsvsMath.v
theories/SpecRsvs.v
theories/RsvsProofs.v
theories/RsvsAreaProofs.v
theories/RsvsObjProofs.v
theories/PropsRsvs.v
theories/RsvsCentreJac.v
theories/RsvsCentreJac4.v
theories/RsvsCentreJac5.v
theories/RsvsCentreJac6.v
theories/SpecCentre.v
theories/RsvsCentreProofs.v
theories/RsvsCentreHes.v
theories/PropsCentre.v
theories/Calc.v
theories/SpecCalc.v
theories/CalcProofs.v
theories/CalcTriProofs.v
theories/CalcChain.v
theories/CalcCentre.v
theories/CalcPlaceProofs.v
theories/CalcRateProofs.v
theories/CalcSumProofs.v
theories/CalcHesProofs.v
theories/CalcAllProofs.v
theories/CalcActProofs.v
theories/CalcDefProofs.v
theories/PropsCalc.v
theories/Sqp.v
theories/SpecSqp.v
theories/SqpProofs.v
theories/SqpStepProofs.v
theories/SqpExample.v
theories/PropsSqp.v
theories/PropsSqpRun.v
theories/PropsSqpSens.v
theories/VelocityProofs.v
theories/PropsVelocity.v
theories/Triangulate.v
theories/SpecTriangulate.v
theories/TriangulateProofs.v
theories/PropsTriangulate.v
theories/SpecMeshVolume.v
theories/MeshVolumeProofs.v
theories/PropsMeshVolume.v
theories/SpecActive.v
theories/PropsActive.v
theories/SpecWalk.v
theories/WalkProofs.v
theories/WalkLoopProofs.v
theories/WalkBuildProofs.v
theories/PropsWalk.v
theories/SpecMaintain.v
theories/MaintainProofs.v
theories/PropsMaintain.v
theories/Spawn.v
theories/SpecSpawn.v
theories/SpawnProofs.v
theories/SpawnMore.v
theories/MeshCheck.v
theories/PropsSpawn.v
theories/PropsArrive.v
theories/SpawnVerts.v
theories/SpecSpawnVerts.v
theories/SpawnVertsProofs.v
theories/PropsSpawnVerts.v
theories/RemoveSnake.v
theories/SpecRemoveSnake.v
theories/RemoveSnakeProofs.v
theories/PropsRemoveSnake.v
theories/Contact.v
theories/SpecContact.v
theories/ContactProofs.v
theories/PropsContact.v
theories/StepLimit.v
theories/SpecStep.v
theories/StepProofs.v
theories/SpawnStepProofs.v
theories/PropsStep.v
theories/Tetgen.v
theories/SpecTetgen.v
theories/TetgenProofs.v
theories/TetgenMesh.v
theories/TetgenWrite.v
theories/TetgenOther.v
theories/PropsTetgen.v
theories/MeshTri.v
theories/SpecMeshTri.v
theories/MeshTriProofs.v
theories/MeshTriWhole.v
theories/PropsMeshTri.v
theories/Orient.v
theories/OrientGeom.v
theories/SpecOrient.v
theories/OrientProofs.v
theories/OrientWhole.v
theories/OrientFaces.v
theories/OrientCheck.v
theories/PropsOrient.v
theories/SplitSurf.v
theories/SpecSplitSurf.v
theories/SplitSurfProofs.v
theories/SplitSurfStep.v
theories/SplitSurfWhole.v
theories/SplitSurfLoop.v
theories/SplitSurfCheck.v
theories/PropsSplitSurf.v
theories/Flatten.v
theories/SpecFlatten.v
theories/FlattenProofs.v
theories/FlattenWhole.v
theories/PropsFlatten.v
theories/PropsSettings.v
theories/Domain.v
theories/SpecDomain.v
theories/DomainProofs.v
theories/PropsDomain.v
theories/Holes.v
theories/SpecHoles.v
theories/HolesProofs.v
theories/HolesSnakeProofs.v
theories/PropsHoles.v
theories/Detect.v
theories/SpecDetect.v
theories/PropsDetect.v
theories/PropsLoops.v
theories/BoundBox.v
theories/SpecBoundBox.v
theories/PropsBoundBox.v
theories/Removal.v
theories/PropsRemoval.v
theories/MergeVolu.v
theories/SpecMergeVolu.v
theories/PropsMergeVolu.v
