-Q theories Verif
theories/Model_Base.v
theories/Model_Lit.v
theories/Model_PartialAssignment.v
theories/Model_Header.v
theories/Model_Arena.v
theories/Model_Heap.v
theories/Model_Luby.v
theories/Model_MutScan.v
theories/Model_Prop.v
theories/Model_Vsids.v
theories/Model_Analysis.v
theories/Model_Solver.v
theories/Model_Drat.v
theories/Model_Cli.v
theories/Model_Writer.v
theories/Model_Log.v
theories/Model_Report.v
theories/Spec.v
theories/Spec_Format.v
theories/Proof_Base.v
theories/Proof_PA.v
theories/Proof_Header.v
theories/Proof_Luby.v
theories/Proof_Drat.v
theories/Proof_Writer.v
theories/Proof_MutScan.v
theories/Proof_Lit.v
theories/Prop_Lit.v
theories/Drivers.v
theories/Prop_Drat.v
theories/Prop_PA.v
theories/Prop_Util.v
theories/Prop_Header.v
theories/Drivers_Heap.v
theories/Proof_Heap.v
theories/Prop_Heap.v
theories/Drivers_Arena.v
theories/Proof_Arena.v
theories/Proof_ArenaGc.v
theories/Proof_ArenaHist.v
theories/Prop_Arena.v
theories/Proof_Long.v
theories/Proof_Trail.v
theories/Proof_Backtrack.v
theories/Proof_Inv.v
theories/Proof_Propagate.v
theories/Proof_PropOps.v
theories/Proof_Gc.v
theories/Proof_Glue.v
theories/Proof_Analysis.v
theories/Proof_Derive.v
theories/Proof_Minimize.v
theories/Proof_Size.v
theories/Proof_Garbage.v
theories/Proof_Learn.v
theories/Proof_DB.v
theories/Proof_Reduce.v
theories/Proof_Solver.v
theories/Proof_Search.v
theories/Proof_Solve.v
theories/Proof_Add.v
theories/Drivers_Solver.v
theories/Proof_Main.v
theories/Proof_Select.v
theories/Examples_Solver.v
theories/Prop_Solver.v
theories/Drivers_Search.v
theories/Drivers_Analysis.v
theories/Proof_Visited.v
theories/Prop_Prop.v
theories/Prop_Analysis.v
theories/Proof_History.v
theories/Proof_Sched.v
theories/Proof_F64.v
theories/Prop_Search.v
theories/Prop_Step.v
theories/Prop_Bump.v
theories/Prop_Sched.v
theories/Prop_Cli.v
theories/Prop_Log.v
theories/Prop_Report.v
theories/Prop_Memory.v
theories/Model_Bitfield.v
theories/Proof_Bitfield.v
theories/Prop_Bitfield.v
theories/Model_VecMap.v
theories/Prop_VecMap.v
theories/Drivers_Vsids.v
theories/Proof_Float.v
theories/Proof_Vsids.v
theories/Proof_VsidsHist.v
theories/Prop_Vsids.v
theories/Prop_Writer.v
theories/Proof_Sim.v
theories/Drivers_Api.v
theories/Prop_Sim.v
theories/Prop_Learn.v
theories/Prop_Safety.v
theories/Prop_Width.v
theories/Model_Trace.v
theories/Prop_Trace.v
theories/Model_Prepare.v
theories/Proof_Prepare.v
theories/Prop_Prepare.v
theories/Model_Cost.v
theories/Proof_Cost.v
theories/Prop_Cost.v
theories/Model_Work.v
theories/Proof_Work.v
theories/Prop_Work.v
theories/Prop_Float.v
theories/Model_HeapCost.v
theories/Prop_HeapCost.v
theories/Model_Depth.v
theories/Prop_Depth.v
theories/Model_DeriveCost.v
theories/Prop_DeriveCost.v
theories/Proof_Tables.v
theories/Prop_Tables.v
theories/Model_Transparent.v
theories/Prop_Transparent.v
theories/Proof_Counters.v
theories/Prop_Counters.v
theories/Model_GcCost.v
theories/Proof_GcCost.v
theories/Prop_GcCost.v
theories/Model_BitfieldInt.v
theories/Proof_BitfieldInt.v
theories/Prop_BitfieldInt.v
theories/Prop_Bound.v
theories/Prop_ProofMirror.v
theories/Model_RunWork.v
theories/Proof_RunWork.v
theories/Prop_RunWork.v
theories/Prop_Units.v
theories/Prop_ArenaCount.v
theories/Drivers_Unstable.v
theories/Proof_Unstable.v
theories/Prop_Unstable.v
theories/Model_RunAnalysis.v
theories/Proof_RunAnalysis.v
theories/Prop_RunAnalysis.v
theories/Model_RunQueue.v
theories/Proof_RunQueue.v
theories/Prop_RunQueue.v
theories/Model_ReduceCost.v
theories/Proof_ReduceCost.v
theories/Prop_ReduceCost.v
theories/Prop_ProofSize.v
theories/Prop_Fair.v
theories/Model_HeapAny.v
theories/Drivers_HeapAny.v
theories/Proof_HeapAny.v
theories/Prop_HeapAny.v
theories/Prop_Total.v
theories/Model_HeapPanic.v
theories/Prop_HeapPanic.v
theories/Prop_HeapDrop.v
