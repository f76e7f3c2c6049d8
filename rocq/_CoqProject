-Q theories Verif
theories/Base.v
theories/NonMax.v
theories/Hierarchy.v
theories/Traverse.v
theories/Forest.v
theories/Builders.v
theories/DebugPrint.v
theories/Spec.v
theories/PSpec.v
theories/PRep.v
theories/POps.v
theories/PInsert.v
theories/PNonMax.v
theories/PForest.v
theories/Client.v
theories/Observe.v
theories/PEvents.v
theories/PDft.v
theories/PShallow.v
theories/PSib.v
theories/PBfs.v
theories/PTrav.v
theories/PRemove.v
theories/PClone.v
theories/PPartial.v
theories/PErr.v
theories/PReach.v
theories/PStruct.v
theories/BuildSpec.v
theories/PBuild.v
theories/Demo.v
theories/PCalls.v
theories/PLimit.v
theories/PGone.v
theories/PDamage.v
theories/Damage.v
theories/PDamage2.v
theories/PDamage3.v
theories/Properties_Structure.v
theories/Properties_Traverse.v
theories/Properties_Remove.v
theories/Properties_Clone.v
theories/Properties_Calls.v
theories/Properties_Ids.v
theories/Properties_Refuted.v
theories/Properties_Damage.v
theories/Properties_Builders.v
theories/PrintSpec.v
theories/PPrint.v
theories/PPicture.v
theories/Properties_Print.v
theories/PrintSize.v
theories/PPrintSize.v
theories/Properties_PrintSize.v
theories/Confine.v
theories/PLocal.v
theories/PLocalIter.v
theories/PConfine.v
theories/Properties_Confine.v
theories/Param.v
theories/PParam.v
theories/Properties_Param.v
theories/DebugPrintE.v
theories/PPrintE.v
theories/Properties_PrintE.v
theories/Cost.v
theories/PCost.v
theories/Properties_Cost.v
theories/PUndo.v
theories/Properties_Undo.v
theories/Properties_Commute.v
theories/Release.v
theories/PRelease.v
theories/Properties_Release.v
theories/CostEdit.v
theories/PCostEdit.v
theories/PCostEdit2.v
theories/PCostEdit3.v
theories/Properties_CostEdit.v
theories/Fuel.v
theories/PFuel.v
theories/PFuel2.v
theories/PFuel3.v
theories/PFuel4.v
theories/PFuel5.v
theories/PFuel6.v
theories/Properties_Fuel.v
theories/Ledger.v
theories/PLedger.v
theories/Properties_Ledger.v
theories/Api.v
theories/PApi.v
theories/Properties_Api.v
theories/RepoTests.v
theories/Release2.v
theories/PRelease2.v
theories/Properties_Release2.v
theories/Caught.v
theories/PCaught.v
theories/Properties_Caught.v
theories/Swap.v
theories/PSwap.v
theories/Properties_Swap.v
theories/Dump.v
theories/PDump.v
theories/Properties_Dump.v
theories/FuelPrint.v
theories/PFuelPrint.v
theories/Properties_FuelPrint.v
theories/PPrintLocal.v
theories/Properties_PrintLocal.v
theories/ApiE.v
theories/PApiE.v
theories/PApiE2.v
theories/Properties_ApiE.v
theories/ApiEB.v
theories/PApiEB.v
theories/Properties_ApiEB.v
theories/ApiEQ.v
theories/PApiEQ.v
theories/Properties_ApiEQ.v
theories/PCloneAny.v
theories/Properties_CloneAny.v
theories/Every.v
theories/PEvery.v
theories/Properties_Every.v
theories/Rename.v
theories/PRename.v
theories/PRename2.v
theories/PRename3.v
theories/PRename4.v
theories/PRename5.v
theories/PRename6.v
theories/PRename7.v
theories/Properties_Rename.v
theories/RenameB.v
theories/PRename8.v
theories/Properties_RenameB.v
theories/Shared.v
theories/PShared.v
theories/Properties_Shared.v
theories/PShared2.v
theories/Properties_SharedB.v
theories/PQueue.v
theories/Properties_Queue.v
theories/Dump2.v
theories/PDump2.v
theories/Properties_Dump2.v
theories/Reference.v
theories/Machine.v
theories/PMachine.v
theories/PMachineR.v
theories/Properties_Reference.v
theories/Sessions.v
theories/PSessions.v
theories/Properties_Sessions.v
theories/Crash.v
theories/PCrash.v
theories/Properties_Crash.v
theories/Properties_Fused.v
theories/Sight.v
theories/PSight.v
theories/Properties_Sight.v
theories/Careful.v
theories/PCareful.v
theories/PCareful2.v
theories/PCareful3.v
theories/Properties_Careful.v
theories/Adaptive.v
theories/Properties_Adaptive.v
theories/Rescue.v
theories/PRescue.v
theories/PRescue2.v
theories/Properties_Rescue.v
theories/Torn.v
theories/PCrash2.v
theories/Properties_Torn.v
theories/Repair.v
theories/PRepair.v
theories/PRepair2.v
theories/Properties_Repair.v
theories/PrintChecked.v
theories/Properties_PrintChecked.v
theories/Dump3.v
theories/PDump3.v
theories/Properties_Dump3.v
theories/Dump4.v
theories/PDump4.v
theories/Properties_Dump4.v
theories/Salvage.v
theories/PSalvage.v
theories/Properties_Salvage.v
theories/Mend.v
theories/PMend.v
theories/PMend2.v
theories/Properties_Mend.v
theories/Move.v
theories/PMove.v
theories/Properties_Move.v
theories/CaughtRelease.v
theories/PCaughtRelease.v
theories/PCaughtRelease2.v
theories/PCaughtRelease3.v
theories/Properties_CaughtRelease.v
theories/Sketch.v
theories/PSketch.v
theories/PSketch2.v
theories/Properties_Sketch.v
theories/PRange.v
theories/Properties_Range.v
theories/IdKeys.v
theories/PIdKeys.v
theories/Properties_IdKeys.v
theories/Properties_IdTable.v
