-Q theories Verif
theories/GoNum.v
theories/FloatLemmas.v
theories/M_Norm.v
theories/S_Norm.v
theories/L_Norm.v
theories/P_Norm.v
theories/M_Slice.v
theories/L_Slice.v
theories/P_Slice.v
theories/M_Geom.v
theories/S_Geom.v
theories/L_Geom.v
theories/P_Geom.v
theories/M_Image.v
theories/S_Image.v
theories/L_Image.v
theories/P_Image.v
theories/M_Raster.v
theories/S_Raster.v
theories/L_Raster1.v
theories/L_Raster2.v
theories/L_Raster3.v
theories/L_Raster4.v
theories/L_Raster5.v
theories/L_Raster6.v
theories/M_Render.v
theories/L_Render.v
theories/P_Raster.v
theories/M_Delaunay.v
theories/S_Delaunay.v
theories/L_PMap.v
theories/L_GMap.v
theories/P_Maps.v
theories/L_Super.v
theories/P_Super.v
theories/L_Slots.v
theories/L_Slots2.v
theories/L_Plane.v
theories/L_BW.v
theories/L_Toggle.v
theories/L_Count.v
theories/L_Insert.v
theories/L_Circle.v
theories/L_Hist.v
theories/L_F32.v
theories/L_Lookup.v
theories/L_Reach.v
theories/L_Tiles.v
theories/P_Lookup.v
theories/P_Delaunay.v
theories/M_Algo.v
theories/S_Algo.v
theories/L_Algo.v
theories/L_Algo2.v
theories/L_Algo3.v
theories/L_Algo4.v
theories/L_Algo5.v
theories/P_Algo.v
theories/P_Combine.v
theories/M_Chan.v
theories/P_Chan.v
theories/P_AlgoEx.v
theories/M_Fitness.v
theories/S_Fitness.v
theories/L_Fit.v
theories/L_Fit2.v
theories/L_Fwd.v
theories/L_Fit3.v
theories/L_Sim.v
theories/L_Hold.v
theories/L_Tri.v
theories/L_Blocks.v
theories/L_Sums.v
theories/L_Var.v
theories/P_Fitness.v
theories/S_Run.v
theories/L_Total.v
theories/L_Run2.v
theories/P_Run.v
theories/L_Race.v
theories/P_Race.v
theories/M_Random.v
theories/P_Random.v
theories/P_Closest.v
theories/M_Heap.v
theories/S_Heap.v
theories/L_Heap.v
theories/P_Heap.v
theories/L_Ear.v
theories/L_Link.v
theories/L_Angle.v
theories/L_Gap.v
theories/L_EarLoop.v
theories/L_Score.v
theories/S_Remove.v
theories/L_Remove.v
theories/P_Remove.v
theories/S_Run2.v
theories/P_Run2.v
theories/L_Pick.v
theories/L_Area.v
theories/L_Bound.v
theories/S_Bound.v
theories/P_Bound.v
theories/M_Voronoi.v
theories/S_Voronoi.v
theories/L_Voronoi.v
theories/L_VorGeo.v
theories/L_Centres.v
theories/L_IVor.v
theories/L_Voronoi2.v
theories/P_Voronoi.v
theories/M_Polygons.v
theories/S_Polygons.v
theories/S_PolyRun.v
theories/L_SimH.v
theories/L_Poly.v
theories/L_Poly2.v
theories/L_VHold.v
theories/L_SliceSort.v
theories/P_Polygons.v
theories/P_PolyRun.v
theories/L_Span.v
theories/L_PolySum.v
theories/S_PolySum.v
theories/P_PolySum.v
theories/M_Generic.v
theories/S_Generic.v
theories/L_Generic.v
theories/L_Generic2.v
theories/P_Generic.v
theories/S_PolyProg.v
theories/L_PFwd.v
theories/L_NewCalc.v
theories/P_PolyProg.v
theories/M_Draw.v
theories/S_Draw.v
theories/L_Draw.v
theories/P_Draw.v
theories/M_Default.v
theories/S_Default.v
theories/P_Default.v
theories/S_Colour.v
theories/L_Colour.v
theories/L_Colour2.v
theories/L_Colour3.v
theories/L_Colour4.v
theories/P_Colour.v
theories/M_Utils.v
theories/S_Utils.v
theories/L_Utils.v
theories/P_Utils.v
theories/M_Spaced.v
theories/S_Move.v
theories/L_Move.v
theories/P_Move.v
theories/P_AlgoEx2.v
theories/M_Cells.v
theories/S_Cells.v
theories/L_Cells.v
theories/P_Cells.v
theories/S_PolyColour.v
theories/L_PolyColour.v
theories/P_PolyColour.v
theories/L_Hull.v
theories/S_Cover.v
theories/L_Cover.v
theories/P_Cover.v
theories/S_Corner.v
theories/L_Corner.v
theories/P_Corner.v
theories/S_Order.v
theories/L_Order.v
theories/P_Order.v
theories/P_Query.v
theories/M_Mem.v
theories/S_Mem.v
theories/L_Mem.v
theories/P_Mem.v
theories/M_MemRun.v
theories/S_MemRun.v
theories/L_MemRun.v
theories/L_MemRun2.v
theories/P_MemRun.v
theories/S_Sched.v
theories/L_Sched.v
theories/P_Sched.v
theories/M_Fine.v
theories/L_Fine.v
theories/L_Fine2.v
theories/L_Fine3.v
theories/S_Fine.v
theories/P_Fine.v
theories/S_Zig.v
theories/L_Zig.v
theories/P_Zig.v
theories/M_PFine.v
theories/S_PFine.v
theories/L_PFine.v
theories/L_PFine2.v
theories/L_PRace.v
theories/L_PFine3.v
theories/P_PFine.v
theories/M_FineRun.v
theories/S_FineRun.v
theories/L_FineRun.v
theories/P_FineRun.v
theories/M_PFineRun.v
theories/S_PFineRun.v
theories/L_PFineRun.v
theories/P_PFineRun.v
theories/L_Back.v
theories/P_Back.v
theories/L_PBack.v
theories/P_PBack.v
theories/P_Cycle.v
theories/M_Shared.v
theories/S_Shared.v
theories/L_Shared.v
theories/P_Shared.v
theories/L_Stuck.v
theories/P_Stuck.v
theories/S_Touch.v
theories/L_Touch.v
theories/P_Touch.v
theories/S_Ties.v
theories/L_Ties.v
theories/P_Ties.v
