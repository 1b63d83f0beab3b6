-Q theories Verif
theories/Scalar.v
theories/Base.v
theories/Ground.v
theories/MLinear.v
theories/MSweep.v
theories/MCompound.v
theories/Planar.v
theories/Doctests.v
theories/Spec.v
theories/SpecEvents.v
theories/SpecAreas.v
theories/Geom.v
theories/RayParity.v
theories/PointProofs.v
theories/SegProofs.v
theories/Witness.v
theories/PropsPoint.v
theories/Check.v
theories/RefuteProofs.v
theories/PropsRefuted.v
theories/RangeProofs.v
theories/BoxProofs.v
theories/HoleFree.v
theories/EqualProofs.v
theories/Witness2.v
theories/PropsMisc.v
theories/SweepStore.v
theories/SweepDetect.v
theories/Along.v
theories/SegMulti.v
theories/SweepSteps.v
theories/Termination.v
theories/Witness3.v
theories/PropsSweep.v
theories/SweepSafe.v
theories/SweepTime.v
theories/SweepOrder.v
theories/SweepMoves.v
theories/SweepAdvance.v
theories/SweepLoop.v
theories/SweepEmit.v
theories/SweepRun.v
theories/SweepFound.v
theories/SweepCross.v
theories/SweepLow.v
theories/SweepFlags.v
theories/SweepInside.v
theories/SweepMarks.v
theories/SweepTold.v
theories/SegContour.v
theories/NoFail.v
theories/Witness4.v
theories/PropsSafe.v
theories/OpenProofs.v
theories/SegAnswer.v
theories/Witness5.v
theories/PropsOpen.v
theories/Witness6.v
theories/PropsArea.v
theories/Witness7.v
theories/PropsClosed.v
theories/Witness8.v
theories/PropsCross.v
theories/Orient.v
theories/Walk.v
theories/Area.v
theories/LeftSide.v
theories/Vertical.v
theories/AreaFlags.v
theories/AreaSem.v
theories/AreaAnswer.v
theories/Drawn.v
theories/Gather.v
theories/Cover.v
theories/AreaQueries.v
theories/Sector.v
theories/ClosedProofs.v
theories/Polygons.v
theories/Inner.v
theories/PolyQueries.v
theories/Areas.v
theories/PolyArea.v
theories/Pieces.v
theories/PolyLine.v
theories/PolyMulti.v
theories/PolyPoly.v
theories/Rings.v
theories/SpecMore.v
theories/Located.v
theories/Mapped.v
theories/Consequences.v
theories/MappedLines.v
theories/Agree.v
theories/Witness12.v
theories/Witness13.v
theories/PropsAgree.v
theories/PropsPolyArea.v
theories/CrossProofs.v
theories/SegEdges.v
theories/SegCross.v
theories/SegStraight.v
theories/Corner.v
theories/SegRegion.v
theories/SegTold.v
theories/Rewritten.v
theories/Witness14.v
theories/PropsTold.v
theories/SweepAngles.v
theories/SweepSides.v
theories/SpecSides.v
theories/SidesProofs.v
theories/Witness15.v
theories/PropsSides.v
theories/Witness10.v
theories/PropsSegArea.v
theories/Witness9.v
theories/PropsSeg.v
theories/Witness11.v
theories/PropsPoly.v
theories/SpecAround.v
theories/AroundProofs.v
theories/SweepPass.v
theories/Witness16.v
theories/SpecContact.v
theories/ContactProofs.v
theories/PropsAround.v
theories/MContainers.v
theories/SpecContainers.v
theories/QueueOrder.v
theories/AnyDetect.v
theories/AnySweep.v
theories/AnyRun.v
theories/ContainerTrees.v
theories/TreeProofs.v
theories/Witness17.v
theories/PropsContainers.v
theories/Witness18.v
theories/PropsContact.v
theories/SpecSelf.v
theories/SelfProofs.v
theories/Witness19.v
theories/PropsSelf.v
theories/SpecJoin.v
theories/JoinProofs.v
theories/JoinLines.v
theories/JoinQueries.v
theories/Witness20.v
theories/PropsJoin.v
theories/Rename.v
theories/RenameRun.v
theories/SpecWritten.v
theories/Reorder.v
theories/Written.v
theories/WrittenPoly.v
theories/Witness21.v
theories/PropsWritten.v
theories/SpecRings.v
theories/PolyAlways.v
theories/Witness22.v
theories/PropsRings.v
theories/SpecMoved.v
theories/Moved.v
theories/MovedSweep.v
theories/MovedQueries.v
theories/MappedSides.v
theories/MappedPoly.v
theories/Witness23.v
theories/PropsMoved.v
theories/SpecBorders.v
theories/Borders.v
theories/Witness24.v
theories/PropsBorders.v
theories/SpecConvex.v
theories/Convex.v
theories/Witness25.v
theories/PropsConvex.v
theories/SpecEdges.v
theories/EdgeByEdge.v
theories/Witness26.v
theories/PropsEdges.v
theories/SpecWide.v
theories/WideAngles.v
theories/SweepWide.v
theories/WideProofs.v
theories/Witness27.v
theories/PropsWide.v
theories/SpecStep.v
theories/StepProofs.v
theories/Witness28.v
theories/PropsStep.v
theories/SpecNested.v
theories/NestedProofs.v
theories/Witness29.v
theories/PropsNested.v
theories/SpecLines.v
theories/LinesProofs.v
theories/Witness30.v
theories/PropsLines.v
theories/SpecChord.v
theories/ChordProofs.v
theories/Witness31.v
theories/PropsChord.v
theories/SpecClockwise.v
theories/ClockwiseProofs.v
theories/Witness32.v
theories/PropsClockwise.v
theories/EmptyProofs.v
theories/PropsEmpty.v
theories/LinesTold.v
theories/Witness33.v
theories/PropsSame.v
theories/SpecSeen.v
theories/SweepSeen.v
theories/SeenProofs.v
theories/Witness34.v
theories/PropsSeen.v
theories/SeenAgree.v
theories/Witness35.v
theories/PropsUniform.v
theories/SpecRingTold.v
theories/RingTold.v
theories/Witness36.v
theories/PropsRingTold.v
theories/SpecPolyTold.v
theories/PolyTold.v
theories/Witness37.v
theories/PropsPolyTold.v
theories/SpecChain.v
theories/PolyChain.v
theories/Witness38.v
theories/PropsChain.v
theories/SpecBare.v
theories/Bare.v
theories/Witness39.v
theories/PropsBare.v
theories/PolySame.v
theories/Witness40.v
theories/PropsPolySame.v
theories/SpecOne.v
theories/OnePoly.v
theories/Witness41.v
theories/PropsOne.v
theories/SpecOneRegion.v
theories/OneRegion.v
theories/Witness42.v
theories/PropsOneRegion.v
theories/SpecEach.v
theories/SeenEach.v
theories/Witness43.v
theories/PropsEach.v
theories/SpecEachLine.v
theories/LineEach.v
theories/Witness44.v
theories/PropsEachLine.v
theories/SpecRow.v
theories/LineRow.v
theories/Witness45.v
theories/PropsRow.v
