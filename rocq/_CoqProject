-Q theories Verif
theories/Machine.v
theories/TimeValue.v
theories/Convert.v
theories/Spec.v
theories/Tac.v
theories/TimeValueProofs.v
theories/Prop_TimeValue.v
theories/Interval.v
theories/Iter.v
theories/Lazy.v
theories/TimeSet.v
theories/Relns.v
theories/Transl.v
theories/Scaling.v
theories/SpecSets.v
theories/SetProofs.v
theories/CollectProofs.v
theories/Prop_Interval.v
theories/SetOpsProofs.v
theories/Prop_TimeSet.v
theories/Prop_Transl.v
theories/Prop_Scaling.v
theories/Graph.v
theories/MaxPlus.v
theories/GraphProofs.v
theories/GraphOps.v
theories/FwBound.v
theories/GraphGrow.v
theories/GraphSafe.v
theories/GraphMem.v
theories/GraphHist.v
theories/GraphTight.v
theories/SpecGraph.v
theories/GraphSound.v
theories/GraphPath.v
theories/GraphMono.v
theories/GraphInv.v
theories/GraphCalls.v
theories/GraphProfile.v
theories/Prop_Graph.v
theories/Prop_Propagation.v
theories/GraphIter.v
theories/Prop_GraphIter.v
theories/SchedSets.v
theories/Scheduler.v
theories/SpecSched.v
theories/SchedProofs.v
theories/SchedBox.v
theories/Prop_Scheduler.v
theories/SchedConv.v
theories/Prop_SchedConvex.v
theories/Prop_SchedStep.v
theories/Seq.v
theories/Prop_Seq.v
theories/Format.v
theories/TextProofs.v
theories/Prop_Format.v
theories/Prop_Constraint.v
theories/Float.v
theories/FloatCheck.v
theories/SpecScale.v
theories/FloatProofs.v
theories/FloatCoarse.v
theories/Prop_Float.v
theories/Prop_FloatSets.v
theories/GraphText.v
theories/Prop_GraphText.v
theories/Prop_GraphCollect.v
theories/Prop_SchedOrder.v
theories/Prop_GraphRepair.v
theories/Adapt.v
theories/Prop_Windows.v
theories/Prop_Exact.v
theories/Prop_SeqCount.v
theories/Prop_Profile.v
theories/Prop_GraphQuery.v
theories/Prop_Repeat.v
theories/Prop_Edge.v
theories/Prop_Cancel.v
theories/Prop_SchedEarliest.v
theories/Prop_GraphRow.v
theories/Prop_Local.v
theories/Derive.v
theories/Prop_Traits.v
theories/Replay.v
theories/Prop_Pipeline.v
theories/Cost.v
theories/Prop_Cost.v
theories/Clock.v
theories/Prop_Clock.v
theories/Prop_Below.v
theories/Prop_Laws.v
theories/Prop_Sizes.v
theories/Prop_Merge.v
theories/Calendar.v
theories/Prop_Calendar.v
theories/Prop_SetText.v
theories/Prop_Plans.v
theories/Prop_Cut.v
theories/Prop_ScalingAll.v
theories/Prop_TranslAll.v
theories/Prop_FloatAll.v
theories/Prop_RoundAll.v
theories/OriginProofs.v
theories/OriginSched.v
theories/Prop_Origin.v
theories/Prop_Direction.v
theories/Prop_SchedGraph.v
theories/Prop_Lazy.v
theories/Prop_Rename.v
theories/Prop_Unit.v
theories/GraphFits.v
theories/Prop_Seen.v
theories/Prop_NoDate.v
theories/Prop_Queries.v
theories/Prop_Fits.v
theories/GraphWarshall.v
theories/Prop_Represent.v
theories/Prop_Program.v
theories/Prop_Loose.v
theories/Prop_Symmetry.v
theories/Prop_Rebuild.v
theories/Prop_Ticks.v
theories/Prop_Plan.v
theories/Prop_Shrink.v
theories/Prop_Reports.v
theories/Prop_Bounded.v
theories/Prop_Whole.v
