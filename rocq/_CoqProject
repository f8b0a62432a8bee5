-Q theories Verif
theories/Outcome.v
theories/Num.v
theories/Rmath.v
theories/Order.v
theories/RectSpec.v
theories/RectProofs.v
theories/RTac.v
theories/BezierSpec.v
theories/BezierR.v
theories/MonotoneR.v
theories/LineSpec.v
theories/LineR.v
theories/EquationSpec.v
theories/EquationR.v
theories/ClearR.v
theories/BandR.v
theories/Path.v
theories/PathSpec.v
theories/PathProofs.v
theories/Parse.v
theories/ParseSpec.v
theories/ParseProofs.v
theories/Props_Path.v
theories/Segment.v
theories/Props_Rmath.v
theories/Arc.v
theories/SegSpec.v
theories/CurveR.v
theories/ThreeR.v
theories/CircleR.v
theories/CubicsR.v
theories/ScanLine.v
theories/ScanProofs.v
theories/Props_Scan.v
theories/Props_Curve.v
theories/VState.v
theories/VPath.v
theories/VBreak.v
theories/VAel.v
theories/VOut.v
theories/VMain.v
theories/VLemmas.v
theories/VFrame.v
theories/ClipSpec.v
theories/VOutProofs.v
theories/ClipCases.v
theories/ClipRefuted.v
theories/Props_Clip.v
theories/AelSpec.v
theories/VAelProofs.v
theories/VEdges.v
theories/VAelRun.v
theories/VRun.v
theories/RunCases.v
theories/Props_Ael.v
theories/WindSpec.v
theories/SortProofs.v
theories/VWind.v
theories/VKept.v
theories/VPairs.v
theories/WindStatements.v
theories/WindCases.v
theories/Props_Wind.v
theories/VFuel.v
theories/FuelCases.v
theories/EndCases.v
theories/RingSpec.v
theories/MarkProofs.v
theories/VRing.v
theories/VBuild.v
theories/VAdd.v
theories/MarkSpec.v
theories/RingStatements.v
theories/Props_Ring.v
theories/BreakSpec.v
theories/VCut.v
theories/VBroken.v
theories/TraceR.v
theories/BreakStatements.v
theories/BreakLines.v
theories/BreakDrawn.v
theories/BreakCases.v
theories/BreakMixed.v
theories/Props_Break.v
theories/Dcel.v
theories/DcelSpec.v
theories/DcelBase.v
theories/DcelBreak.v
theories/DcelFace.v
theories/DcelLink.v
theories/DcelSplit.v
theories/DcelUnique.v
theories/DcelProcess.v
theories/DcelR.v
theories/DcelInv.v
theories/DcelStatements.v
theories/DcelCases.v
theories/DcelCaseProofs.v
theories/Props_Dcel.v
theories/ClimbSpec.v
theories/VClimb.v
theories/ClimbRing.v
theories/ClimbBroken.v
theories/ClimbPoly.v
theories/ClimbFuel.v
theories/ClimbNone.v
theories/ClimbCases.v
theories/Props_Ends.v
theories/VSolid.v
theories/VSafe.v
theories/VSafeRun.v
theories/SafeSpec.v
theories/VSafeEnd.v
theories/SafeCases.v
theories/Props_Safe.v
theories/VFresh.v
theories/VRepeat.v
theories/RepeatCases.v
theories/EquiMap.v
theories/EquiSpec.v
theories/EquiLoad.v
theories/EquiBreak.v
theories/EquiRun.v
theories/BoxSpec.v
theories/BoxZ.v
theories/BoxCheck.v
theories/BoxMap.v
theories/BoxTab.v
theories/RenMap.v
theories/RenBreak.v
theories/RenSort.v
theories/RenRun.v
theories/Layout.v
theories/LayoutLines.v
theories/BoxProofs.v
theories/BoxCases.v
theories/Props_Box.v
theories/LensSpec.v
theories/Lens.v
theories/LensBottom.v
theories/LensLoad.v
theories/LensR.v
theories/LensRun.v
theories/LensRegion.v
theories/LensCases.v
theories/Props_Lens.v
theories/StretchSpec.v
theories/Stretch.v
theories/StretchCases.v
theories/Props_Stretch.v
theories/TwinSpec.v
theories/Twin.v
theories/TwinCases.v
theories/Props_Twin.v
theories/PieceSpec.v
theories/Piece.v
theories/PieceCases.v
theories/Props_Piece.v
theories/LayoutSpec.v
theories/LayoutProofs.v
theories/LayoutCases.v
theories/Props_Layout.v
theories/ListSpec.v
theories/Listing.v
theories/ListRun.v
theories/ListBreak.v
theories/ListCount.v
theories/ListSegs.v
theories/ListProofs.v
theories/ListCases.v
theories/Props_Listing.v
theories/OrdTac.v
theories/SpanSpec.v
theories/SpanRing.v
theories/SpanTop.v
theories/SpanStep.v
theories/SpanRun.v
theories/SpanMark.v
theories/SpanPoly.v
theories/SpanEnd.v
theories/SpanCases.v
theories/Props_Span.v
theories/PlaneSpec.v
theories/PlaneGeo.v
theories/PlaneSort.v
theories/PlaneTop.v
theories/PlaneRun.v
theories/PlaneCount.v
theories/PlaneScan.v
theories/PlaneWind.v
theories/PlanePoly.v
theories/PlaneInput.v
theories/PlaneEnd.v
theories/PlaneCases.v
theories/Props_Plane.v
theories/OutSpec.v
theories/OutPath.v
theories/OutAlt.v
theories/OutList.v
theories/OutClose.v
theories/OutMatch.v
theories/OutLink.v
theories/OutTop.v
theories/OutClear.v
theories/OutBeam.v
theories/OutGrow.v
theories/OutPar.v
theories/OutScan.v
theories/OutStep.v
theories/OutRun.v
theories/OutEven.v
theories/Props_Out.v
theories/SortSpec.v
theories/VSort.v
theories/SortRun.v
theories/SortCases.v
theories/Props_Sort.v
theories/ShiftMap.v
theories/ReuseSpec.v
theories/ReuseRun.v
theories/ReusePoly.v
theories/ReuseCases.v
theories/Props_Reuse.v
theories/DcelLaySpec.v
theories/DcelKept.v
theories/DcelPieces.v
theories/DcelCut.v
theories/DcelLay.v
theories/DcelLayMain.v
theories/DcelLayCases.v
theories/Props_Lay.v
theories/DcelAgainSpec.v
theories/DcelAgain.v
theories/DcelAgainCases.v
theories/Props_Again.v
theories/AffineSpec.v
theories/AffineBreak.v
theories/AffineFirst.v
theories/AffineRun.v
theories/AffineCases.v
theories/Props_Affine.v
theories/DcelMoveSpec.v
theories/DcelMove.v
theories/DcelMoveCases.v
theories/Props_DcelMove.v
theories/SwapSpec.v
theories/Swap.v
theories/SwapCases.v
theories/Props_Swap.v
theories/DcelNextSpec.v
theories/DcelNext.v
theories/DcelNextCases.v
theories/Props_DcelNext.v
theories/DcelSizeSpec.v
theories/DcelCount.v
theories/DcelSize.v
theories/DcelSizeCases.v
theories/Props_DcelSize.v
theories/BreakSizeSpec.v
theories/BreakCount.v
theories/BreakLoad.v
theories/BreakSizeCases.v
theories/Props_BreakSize.v
theories/EdgeCount.v
theories/BoundCount.v
theories/EdgeCases.v
theories/Props_EdgeCount.v
