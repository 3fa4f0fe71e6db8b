-Q theories Verif
theories/Lib.v
theories/DisjointSet.v
theories/DisjointSetProofs.v
theories/Prop_DisjointSet.v
theories/GenericFormulas.v
theories/Geo.v
theories/Prop_Formulas.v
theories/Dispatch.v
theories/Orient.v
theories/Prop_Dispatch.v
theories/ExactStage.v
theories/Prop_ExactStage.v
theories/PointTests.v
theories/Prop_PointTests.v
theories/PushRelabel.v
theories/PushRelabelProofs.v
theories/Prop_PushRelabel.v
theories/F64.v
theories/Interval.v
theories/IntervalSpec.v
theories/F64Facts.v
theories/Prop_Interval.v
theories/HomProofs.v
theories/Filters.v
theories/Prop_Filters.v
theories/Expansion.v
theories/ExpReal.v
theories/ExpSpec.v
theories/ExpFloat.v
theories/Prop_Expansion.v
theories/Mesh.v
theories/MeshSpec.v
theories/MeshFacts.v
theories/MeshProofs.v
theories/MeshAddFace.v
theories/MeshSplitFace.v
theories/MeshSplitEdge.v
theories/MeshNewFaces.v
theories/MeshNewEdges.v
theories/MeshNewVerts.v
theories/MeshNew.v
theories/Prop_Mesh.v
theories/MeshNei.v
theories/Prop_MeshNei.v
theories/SpatialSort.v
theories/SpatialSortProofs.v
theories/Prop_SpatialSort.v
theories/Tet.v
theories/TetSpec.v
theories/InsphereProofs.v
theories/Prop_Insphere.v
theories/TetProofs.v
theories/TetFace.v
theories/TetFaceProofs.v
theories/Prop_Tet.v
theories/Soup.v
theories/SoupProofs.v
theories/SoupFloat.v
theories/Prop_Soup.v
theories/Poly.v
theories/Prop_Poly.v
theories/Clip.v
theories/Prop_Clip.v
theories/Prop_Coplanar.v
theories/Virtual.v
theories/Prop_Virtual.v
theories/Flip.v
theories/Prop_Flip.v
theories/Explicit.v
theories/ExpZero.v
theories/ExpEst.v
theories/ExplicitSpec.v
theories/ExplicitProofs.v
theories/ExplicitInc.v
theories/Prop_Explicit.v
theories/ErrBound.v
theories/ErrStageA.v
theories/ErrStatic.v
theories/Err2d.v
theories/Prop_ErrBound.v
theories/MaxComp.v
theories/MaxCompProofs.v
theories/Prop_MaxComp.v
theories/GraphCut.v
theories/GcSpec.v
theories/GcBase.v
theories/GcTree.v
theories/GcAug.v
theories/GcAdopt.v
theories/GcLoop.v
theories/Prop_GraphCut.v
theories/BwSpec.v
theories/BwBase.v
theories/BwGrow.v
theories/BwFill.v
theories/BwConnect.v
theories/BwInsert.v
theories/BwFinish.v
theories/BwCheck.v
theories/Prop_Bw.v
theories/TriSegSpec.v
theories/TriSeg.v
theories/TriSegProofs.v
theories/TriSegWalk.v
theories/Prop_TriSeg.v
theories/Bsp.v
theories/BspSpec.v
theories/BspCut.v
theories/BspLoop.v
theories/BspGlue.v
theories/BspSplit.v
theories/BspCell.v
theories/BspRun.v
theories/BspParts.v
theories/BspNew.v
theories/Prop_Bsp.v
theories/Outline.v
theories/OutlineSpec.v
theories/OutlineWalk.v
theories/OutlineTurn.v
theories/OutlineMerge.v
theories/OutlineGroups.v
theories/Prop_Outline.v
theories/Trace.v
theories/TraceSpec.v
theories/TraceWalk.v
theories/TraceMark.v
theories/TraceFlood.v
theories/TraceRun.v
theories/Prop_Trace.v
theories/TetCount.v
theories/Prop_Pipeline.v
theories/Emit.v
theories/EmitSpec.v
theories/EmitProofs.v
theories/Prop_Emit.v
theories/Partition.v
theories/PartitionSpec.v
theories/PartitionProofs.v
theories/Prop_Partition.v
theories/FaceTest.v
theories/Prop_FaceTest.v
theories/CellTest.v
theories/Prop_CellTest.v
theories/DivConq.v
theories/DivConqSpec.v
theories/Prop_DivConq.v
theories/PolyMesh.v
theories/Prop_PolyMesh.v
theories/MergeHulls.v
theories/MergeSpec.v
theories/MergeInv.v
theories/MergeStart.v
theories/Prop_Merge.v
theories/Skeleton.v
theories/SkeletonSpec.v
theories/SkeletonProofs.v
theories/Prop_Skeleton.v
