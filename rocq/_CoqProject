-Q theories Verif
theories/QcTac.v
theories/Model_Base.v
theories/Model_Box.v
theories/Model_Geometry.v
theories/Model_Segment.v
theories/Spec_Base.v
theories/Spec_Segment.v
theories/Spec_Bounds.v
theories/Proof_Base.v
theories/Proof_Line.v
theories/Proof_Box.v
theories/Proof_Box2.v
theories/Proof_SegRel.v
theories/Proof_Bounds.v
theories/Prop_Base.v
theories/Prop_Box.v
theories/Prop_SegRel.v
theories/Spec_Clip.v
theories/Proof_SegOps.v
theories/Proof_SegOps2.v
theories/Proof_SegOps3.v
theories/Proof_SegLoops.v
theories/Proof_SegUnion.v
theories/Prop_SegOps.v
theories/Model_Utils.v
theories/Model_Contour.v
theories/Spec_Contour.v
theories/Spec_Utils.v
theories/Spec_Circle.v
theories/Spec_Literals.v
theories/Proof_Utils.v
theories/Proof_Contour.v
theories/Proof_Contour2.v
theories/Proof_Edges.v
theories/Proof_Contour3.v
theories/Prop_Contour.v
theories/Proof_Circle.v
theories/Proof_Collect.v
theories/Prop_Utils.v
theories/Model_Operators.v
theories/Prop_Operators.v
theories/Proof_Locate.v
theories/Proof_Locate2.v
theories/Proof_Locate3.v
theories/Proof_Locate4.v
theories/Prop_Locate.v
theories/Proof_Shrink.v
theories/Prop_Vertices.v
theories/Model_Linear.v
theories/Spec_Sweep.v
theories/Proof_Sweep.v
theories/Proof_Sweep2.v
theories/Proof_Sweep3.v
theories/Proof_Sweep4.v
theories/Proof_Sweep5.v
theories/Proof_Sweep6.v
theories/Prop_Sweep.v
theories/Proof_Sweep7.v
theories/Proof_Sweep8.v
theories/Proof_Sweep9.v
theories/Proof_Sweep10.v
theories/Proof_Sweep11.v
theories/Proof_Sweep12.v
theories/Proof_Sweep13.v
theories/Proof_Sweep14.v
theories/Proof_Sweep15.v
theories/Proof_Sweep16.v
theories/Proof_Sweep17.v
theories/Proof_Sweep18.v
theories/Proof_Sweep19.v
theories/Proof_Sweep20.v
theories/Prop_LinearOps.v
theories/Model_Mesh.v
theories/Spec_Mesh.v
theories/Proof_Mesh.v
theories/Proof_Mesh2.v
theories/Proof_Mesh3.v
theories/Prop_Mesh.v
theories/Proof_Delaunay.v
theories/Proof_Delaunay2.v
theories/Proof_Delaunay3.v
theories/Proof_Delaunay4.v
theories/Proof_Delaunay5.v
theories/Proof_Delaunay6.v
theories/Proof_Delaunay7.v
theories/Prop_Delaunay.v
theories/Proof_Valid.v
theories/Model_Relate.v
theories/Spec_Relate.v
theories/Proof_Relate.v
theories/Proof_Relate2.v
theories/Proof_Relate3.v
theories/Proof_Relate4.v
theories/Proof_Relate5.v
theories/Proof_Relate6.v
theories/Proof_Relate7.v
theories/Proof_Outline.v
theories/Proof_RelateC.v
theories/Proof_RelateC2.v
theories/Proof_RelateP.v
theories/Prop_Valid.v
theories/Prop_Relate.v
theories/Model_BentleyOttmann.v
theories/Proof_Ottmann.v
theories/Proof_Ottmann2.v
theories/Proof_Ottmann3.v
theories/Proof_Ottmann4.v
theories/Proof_Ottmann5.v
theories/Proof_Ottmann6.v
theories/Proof_Ottmann7.v
theories/Proof_Ottmann8.v
theories/Proof_Ottmann9.v
theories/Proof_Ottmann10.v
theories/Proof_Ottmann11.v
theories/Proof_Ottmann12.v
theories/Spec_Validity.v
theories/Proof_Ottmann13.v
theories/Proof_Ottmann14.v
theories/Proof_Ottmann15.v
theories/Prop_Validity.v
theories/Model_Mixed.v
theories/Model_Shaped.v
theories/Proof_Parity.v
theories/Proof_Flags.v
theories/Proof_Flags2.v
theories/Proof_Flags3.v
theories/Prop_Mixed.v
theories/Model_Seidel.v
theories/Proof_Seidel.v
theories/Prop_Seidel.v
theories/Proof_Seidel2.v
theories/Proof_Seidel3.v
theories/Proof_Seidel4.v
theories/Proof_Seidel5.v
theories/Proof_Seidel6.v
theories/Proof_Seidel7.v
theories/Proof_Seidel8.v
theories/Proof_Seidel9.v
theories/Proof_Seidel10.v
theories/Proof_Seidel11.v
theories/Proof_Seidel12.v
theories/Spec_Seidel.v
theories/Proof_Seidel13.v
theories/Proof_Seidel14.v
theories/Proof_Seidel15.v
theories/Proof_Flags4.v
theories/Proof_Flags5.v
theories/Proof_Flags6.v
theories/Proof_Ring.v
theories/Proof_Loop.v
theories/Proof_Corner.v
theories/Proof_Corner2.v
theories/Proof_Region.v
theories/Proof_Select.v
theories/Proof_Connect.v
theories/Proof_Draw.v
theories/Proof_Reduce.v
theories/Proof_Reduce2.v
theories/Proof_Simple4.v
theories/Proof_Shaped.v
theories/Spec_Shaped.v
theories/Proof_Ray.v
theories/Proof_Orient.v
theories/Proof_Nested.v
theories/Proof_Nested2.v
theories/Proof_Start.v
theories/Proof_Bridge.v
theories/Proof_Limit.v
theories/Proof_Result.v
theories/Proof_Result2.v
theories/Proof_Odd.v
theories/Proof_Clip.v
theories/Proof_Ready.v
theories/Proof_Polygons.v
theories/Prop_Shaped.v
theories/Model_Multipolygon.v
theories/Spec_Multipolygon.v
theories/Proof_Multi.v
theories/Proof_Multi2.v
theories/Proof_Multi3.v
theories/Proof_Multi4.v
theories/Prop_Multipolygon.v
theories/Model_RelateLinear.v
theories/Spec_RelateLinear.v
theories/Proof_RelateLinear.v
theories/Prop_RelateLinear.v
theories/Proof_RelSweep.v
theories/Proof_RelSweep2.v
theories/Proof_RelSweep3.v
theories/Proof_RelSweep4.v
theories/Proof_RelSweep5.v
theories/Proof_RelSweep6.v
theories/Proof_RelSweep7.v
theories/Model_RelateShaped.v
theories/Spec_RelateShaped.v
theories/Proof_RelShaped1.v
theories/Proof_RelShaped2.v
theories/Proof_RelShaped3.v
theories/Proof_RelShaped4.v
theories/Proof_RelShaped5.v
theories/Proof_RelShaped6.v
theories/Proof_RelShaped7.v
theories/Proof_RelShaped8.v
theories/Proof_RelateShaped.v
theories/Proof_RelateMulti1.v
theories/Proof_RelateMulti2.v
theories/Model_RelateMultipolygon.v
theories/Proof_RelateMulti3.v
theories/Prop_RelateShaped.v
theories/Prop_RelateMultipolygon.v
theories/Model_RelateMixed.v
theories/Proof_RelateMixed.v
theories/Prop_RelateMixed.v
theories/Proof_Mix1.v
theories/Proof_Mix2.v
theories/Proof_Mix3.v
theories/Proof_Mix4.v
theories/Proof_Mix5.v
theories/Model_MixedClip.v
theories/Spec_MixedClip.v
theories/Proof_Mix6.v
theories/Proof_Mix7.v
theories/Proof_Located.v
theories/Prop_MixedClip.v
theories/Model_MixedDiff.v
theories/Spec_MixedDiff.v
theories/Proof_Mix8.v
theories/Proof_Mix9.v
theories/Proof_Mix10.v
theories/Prop_MixedDiff.v
theories/Model_Constrained.v
theories/Proof_Constrained1.v
theories/Proof_Constrained2.v
theories/Proof_Constrained3.v
theories/Proof_Constrained4.v
theories/Proof_Constrained5.v
theories/Prop_Constrained.v
theories/Spec_Tight.v
theories/Proof_Simple1.v
theories/Proof_Simple2.v
theories/Proof_Simple5.v
theories/Proof_Tight1.v
theories/Proof_Tight2.v
theories/Proof_Tight3.v
theories/Proof_Tight4.v
theories/Proof_Tight5.v
theories/Proof_Tight6.v
theories/Proof_Tight7.v
theories/Proof_Tight8.v
theories/Proof_Tight9.v
theories/Proof_Tight10.v
theories/Prop_Tight.v
theories/Model_LinearOperators.v
theories/Spec_LinearLaws.v
theories/Proof_LinearLaws1.v
theories/Proof_LinearLaws2.v
theories/Proof_LinearLaws3.v
theories/Proof_LinearLaws4.v
theories/Prop_LinearLaws.v
theories/Spec_ClippedLaws.v
theories/Proof_Clipped1.v
theories/Proof_Clipped2.v
theories/Prop_Clipped.v
theories/Proof_Simple3.v
theories/Proof_Simple6.v
theories/Prop_Results.v
theories/Prop_Crossing.v
