-Q theories Verif
theories/Scalar.v
theories/GA.v
theories/Approx.v
theories/Utils.v
theories/Polygon.v
theories/Graph.v
theories/Line.v
theories/Blade.v
theories/Fold.v
theories/ListSpec.v
theories/F32.v
theories/Laws.v
theories/GraphSpec.v
theories/GraphAdd.v
theories/Closest.v
theories/GraphAddProps.v
theories/GraphRemove.v
theories/PlaneSpec.v
theories/GraphDemo.v
theories/GraphHistory.v
theories/Properties_Graph.v
theories/UtilsReal.v
theories/UtilsF32.v
theories/Properties_Utils.v
theories/PolySpec.v
theories/PolyArea.v
theories/PolyRegular.v
theories/PolyDiag.v
theories/PolyTri.v
theories/PolyConvex.v
theories/SimpleSpec.v
theories/Winding.v
theories/SimplePoly.v
theories/SimpleWinding.v
theories/SimpleSplit.v
theories/SimpleGlue.v
theories/SimpleMain.v
theories/SimpleChord.v
theories/SimpleJordan.v
theories/SimpleEar.v
theories/SimpleTri.v
theories/PolyF32.v
theories/Properties_Polygon.v
theories/Properties_Simple.v
theories/GASpec.v
theories/GARing.v
theories/GAReal.v
theories/GAF32.v
theories/ApproxProofs.v
theories/LineProofs.v
theories/Properties_Math.v
theories/BladeProofs.v
theories/FoldSpec.v
theories/FoldProofs.v
theories/Properties_Line.v
theories/Properties_Blade.v
theories/Properties_Fold.v
theories/PlanarSpec.v
theories/GraphPlanar.v
theories/GraphReport.v
theories/PlanarDemo.v
theories/Properties_Planar.v
theories/PolyNewF32.v
theories/Properties_Grid.v
theories/GridUtils.v
theories/GridSeg.v
theories/GraphSim.v
theories/GridSpec.v
theories/GridPrim.v
theories/GridOn.v
theories/GridGraph.v
theories/GridInst.v
theories/GridCheck.v
theories/Properties_GridGraph.v
theories/Format.v
theories/RoundSpec.v
theories/Rounding.v
theories/GARound.v
theories/NormRound.v
theories/LenReal.v
theories/InvRound.v
theories/RotRound.v
theories/FromRound.v
theories/BitRound.v
theories/ProdRound.v
theories/RoundDemo.v
theories/Properties_Round.v
theories/NearCalc.v
theories/GeoSpec.v
theories/GeoRound.v
theories/GeoOn.v
theories/GeoPoly.v
theories/GeoArea.v
theories/GeoSeg.v
theories/GeoGraph.v
theories/Properties_Geo.v
theories/CrateTests.v
theories/ConsSpec.v
theories/GeoCons.v
theories/GeoFoot.v
theories/GeoLine.v
theories/Properties_Cons.v
theories/IncSpec.v
theories/GeoInc.v
theories/GeoRad.v
theories/Properties_Inc.v
theories/GeoPar.v
theories/GeoAxis.v
theories/GeoBis.v
theories/Properties_Par.v
theories/RegSpec.v
theories/GeoReg.v
theories/GeoRegPoly.v
theories/Properties_Reg.v
theories/LineRound.v
theories/Properties_LineF.v
theories/AngleSpec.v
theories/AngleRound.v
theories/Properties_Angle.v
theories/TransRound.v
theories/Properties_Trans.v
theories/MarginSpec.v
theories/MarginReal.v
theories/MarginSeg.v
theories/MarginGraph.v
theories/MarginAdd.v
theories/MarginHist.v
theories/Properties_Margin.v
theories/DrawSpec.v
theories/Draw.v
theories/Properties_Draw.v
theories/SimSpec.v
theories/Follow.v
theories/MarginSim.v
theories/Drift.v
theories/MarginDrift.v
theories/CalmCheck.v
theories/SimOrder.v
theories/Properties_Sim.v
theories/IsoSpec.v
theories/MoveSim.v
theories/IsoReal.v
theories/SymF32.v
theories/SymMove.v
theories/PolyMove.v
theories/PolyIso.v
theories/Properties_Iso.v
theories/Undo.v
theories/Properties_Undo.v
theories/Size.v
theories/SizeAny.v
theories/Properties_Size.v
theories/HelperSpec.v
theories/HelperSym.v
theories/HelperIso.v
theories/Properties_Helper.v
theories/ThroughSpec.v
theories/Through.v
theories/Properties_Through.v
theories/SpinSpec.v
theories/Spin.v
theories/Properties_Spin.v
theories/GridThroughSpec.v
theories/GridThrough.v
theories/GridThroughCheck.v
theories/Properties_GridThrough.v
theories/RemovalSpec.v
theories/Removal.v
theories/Properties_Removal.v
theories/RebuildSpec.v
theories/Rebuild.v
theories/Properties_Rebuild.v
theories/AnyOrderSpec.v
theories/AnyOrder.v
theories/AnyOrderCheck.v
theories/Properties_AnyOrder.v
theories/MeaningSpec.v
theories/Meaning.v
theories/MeaningCheck.v
theories/Properties_Meaning.v
theories/MeaningMargin.v
theories/Properties_MeaningMargin.v
theories/Over.v
theories/Properties_Over.v
theories/LooseSpec.v
theories/Loose.v
theories/GridLooseSpec.v
theories/GridLoose.v
theories/GridLooseCheck.v
theories/Properties_Loose.v
theories/LooseRemoveSpec.v
theories/LooseRemove.v
theories/GridLooseRemove.v
theories/Properties_LooseRemove.v
theories/LooseOrderSpec.v
theories/LooseOrder.v
theories/Properties_LooseOrder.v
theories/GridOverSpec.v
theories/GridOver.v
theories/Properties_GridOver.v
theories/StaysSpec.v
theories/Stays.v
theories/Properties_Stays.v
theories/LoopsSpec.v
theories/Loops.v
theories/Properties_Loops.v
theories/FrozenSpec.v
theories/Frozen.v
theories/Properties_Frozen.v
theories/CarrySpec.v
theories/Carry.v
theories/Properties_Carry.v
theories/FrameSpec.v
theories/Frame.v
theories/Properties_Frame.v
theories/BlindSpec.v
theories/Blind.v
theories/Properties_Blind.v
theories/ShuffleSpec.v
theories/Shuffle.v
theories/Properties_Shuffle.v
theories/DirectionSpec.v
theories/Direction.v
theories/Properties_Direction.v
theories/NewNodesSpec.v
theories/NewNodes.v
theories/Properties_NewNodes.v
