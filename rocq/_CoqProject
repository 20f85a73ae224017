-Q theories Verif
theories/Base.v
theories/S_Map.v
theories/M_Splay.v
theories/P_Splay.v
theories/P_SplayMap.v
theories/P_SplaySet.v
theories/Props_Splay.v
theories/Scalar.v
theories/M_Events.v
theories/M_Geo.v
theories/M_LineOrPoint.v
theories/M_Slab.v
theories/M_Active.v
theories/S_Geo.v
theories/P_Geo.v
theories/P_LineOrPoint.v
theories/P_Tilt.v
theories/M_Float.v
theories/Props_Geo.v
theories/P_Active.v
theories/Props_Active.v
theories/P_Slab.v
theories/M_Sweep.v
theories/M_Crossings.v
theories/Props_Bugs.v
theories/P_Chain.v
theories/P_Bundle.v
theories/P_Order.v
theories/P_Tile.v
theories/P_Heap.v
theories/P_Inv.v
theories/P_Store.v
theories/P_Handle.v
theories/P_LL.v
theories/P_Step.v
theories/P_Run.v
theories/P_Param.v
theories/S_Sweep.v
theories/P_Master.v
theories/P_Spec.v
theories/Props_Sweep.v
theories/P_LineInt.v
theories/P_Ints.v
theories/S_Ints.v
theories/P_IntsSpec.v
theories/Props_Ints.v
theories/Ex_Sweep.v
theories/M_MonoPoly.v
theories/S_Mono.v
theories/P_Mono.v
theories/Props_Mono.v
theories/M_Raster.v
theories/S_Raster.v
theories/P_Raster.v
theories/P_RasterArea.v
theories/Props_Raster.v
theories/M_Rings.v
theories/S_Rings.v
theories/P_Rings.v
theories/P_RingWalk.v
theories/P_RingFinish.v
theories/Props_Rings.v
theories/M_Op.v
theories/S_Op.v
theories/Props_Op1.v
theories/P_OpLab.v
theories/P_OpPoint.v
theories/P_OpStep.v
theories/P_OpRun.v
theories/P_OpPlane.v
theories/S_Boundary.v
theories/P_OpPoly.v
theories/P_OpSide.v
theories/P_Boundary.v
theories/P_OpBoundary.v
theories/Props_Op2.v
theories/P_OpCount.v
theories/P_OpTotal.v
theories/Props_Op3.v
theories/M_Laminar.v
theories/S_Laminar.v
theories/P_Laminar.v
theories/Props_Laminar.v
theories/P_LamRun.v
theories/P_LamGeo.v
theories/P_LamSpec.v
theories/P_LamCount.v
theories/P_LamSimple.v
theories/Props_Laminar2.v
theories/M_MonoSweep.v
theories/P_BTree.v
theories/P_MonoGeo.v
theories/P_MonoSweep.v
theories/P_MonoStep.v
theories/M_Chains.v
theories/P_ChainDesc.v
theories/P_ChainEvent.v
theories/P_MonoChains.v
theories/P_ChainStep.v
theories/P_ChainSteps.v
theories/P_MonoRun.v
theories/S_Chains.v
theories/P_MonoAbove.v
theories/P_MonoCount.v
theories/P_MonoInit.v
theories/P_MonoTotal.v
theories/P_EdgeSweep.v
theories/P_EdgeChains.v
theories/P_EdgeRun.v
theories/P_EdgeTotal.v
theories/Props_Chains.v
theories/Props_Decomp.v
theories/Props_Area.v
theories/S_Cells.v
theories/P_Cells.v
theories/P_CellPieces.v
theories/M_RasterUse.v
theories/Props_Cells.v
theories/S_Multi.v
theories/Props_Valid.v
theories/Props_OpArea.v
theories/M_RasterBounds.v
theories/P_Columns.v
theories/P_Vertices.v
theories/Props_Bounds.v
theories/Props_Marks.v
theories/S_Move.v
theories/P_Related.v
theories/P_MoveGeo.v
theories/P_Move.v
theories/P_MoveOp.v
theories/Props_Same.v
theories/Props_Moved.v
theories/P_Stretch.v
theories/Props_Stretch.v
theories/S_Expr.v
theories/Props_Expr.v
theories/P_Pieces.v
theories/Props_Pieces.v
theories/P_ChainLen.v
theories/P_PieceCount.v
theories/S_Corners.v
theories/P_PieceTotal.v
theories/Props_Corners.v
theories/S_Cuts.v
theories/Props_Cuts.v
theories/S_Written.v
theories/P_Cycles.v
theories/P_Layout.v
theories/Props_Written.v
theories/P_Kept.v
theories/Props_Kept.v
theories/S_Round.v
theories/M_Round.v
theories/P_Round.v
theories/Props_Round.v
theories/P_Ties.v
theories/M_F64.v
theories/S_F64.v
theories/P_F64.v
theories/Props_F64.v
theories/S_Owned.v
theories/P_Owned.v
theories/Props_Owned.v
theories/P_TiesOp.v
theories/Props_Orient.v
