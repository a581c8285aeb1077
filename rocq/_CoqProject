-Q theories Verif
theories/Base.v
theories/Machine.v
theories/Trans.v
theories/Spec.v
theories/SpecState.v
theories/Reach.v
theories/InvLock.v
theories/InvVec.v
theories/InvList.v
theories/InvStack.v
theories/InvSlot.v
theories/InvObj.v
theories/Hist.v
theories/InvFields.v
theories/LogLemmas.v
theories/InvCall.v
theories/InvQuery.v
theories/InvSeq.v
theories/InvCount.v
theories/InvDeath.v
theories/Witness.v
theories/Facts.v
theories/InvRem.v
theories/InvEmit.v
theories/Emission.v
theories/InvSig.v
theories/Access.v
theories/SpecRace.v
theories/RaceProof.v
theories/RaceStep.v
theories/RaceDrop.v
theories/Examples.v
theories/RaceExamples.v
theories/Lifetime.v
theories/SpecLife.v
theories/LifeKinds.v
theories/LifeProof.v
theories/LifeStep.v
theories/LifeOnce.v
theories/LifeExamples.v
theories/ObjLife.v
theories/SpecObjLife.v
theories/ObjLifeProof.v
theories/ObjLifeOnce.v
theories/ObjLifeExamples.v
theories/SpecActs.v
theories/LogActs.v
theories/SpecErase.v
theories/InvErase.v
theories/SpecCall.v
theories/InvOp.v
theories/OpCalls.v
theories/OpErase.v
theories/CallRun.v
theories/OpSlots.v
theories/OpFacts.v
theories/OpExamples.v
theories/SpecOwn.v
theories/OpOwn.v
theories/OpEmit.v
theories/OpQuery.v
theories/SpecHandle.v
theories/OpHandle.v
theories/SpecBound.v
theories/OpBound.v
theories/TwoLoads.v
theories/SpecDeath.v
theories/OpDeath.v
theories/OptRel.v
theories/Combiners.v
theories/SpecComb.v
theories/CombProof.v
theories/SpecUse.v
theories/InvUse.v
theories/InvFault.v
theories/UseExamples.v
theories/PropCalls.v
theories/PropLife.v
theories/PropEmit.v
theories/PropSignals.v
theories/PropHandles.v
theories/PropErase.v
theories/PropConn.v
theories/PropUse.v
theories/PropResult.v
theories/PropValue.v
theories/PropBound.v
theories/PropComb.v
theories/PropRace.v
theories/PropLifetime.v
theories/PropObjLife.v
theories/SpecAtomic.v
theories/AtomicProof.v
theories/AtomicCalls.v
theories/AtomicExamples.v
theories/PropAtomic.v
theories/SpecWait.v
theories/WaitProof.v
theories/WaitExamples.v
theories/PropWait.v
theories/SpecLists.v
theories/ListsProof.v
theories/ListsCalls.v
theories/ListsExamples.v
theories/PropLists.v
theories/SpecCopy.v
theories/CopyProof.v
theories/CopyExamples.v
theories/PropCopy.v
theories/PropDeath.v
theories/RepoTests.v
theories/TestsProof.v
theories/PropTests.v
theories/SpecAlone.v
theories/AloneProof.v
theories/AloneTest.v
theories/AloneFair.v
theories/PropAlone.v
theories/SpecMean.v
theories/MeanProof.v
theories/MeanTest.v
theories/PropMean.v
theories/SpecTidy.v
theories/TidyBase.v
theories/TidyVop.v
theories/TidyStep.v
theories/TidyRun.v
theories/TidyCase.v
theories/TidyTrans.v
theories/TidyAll.v
theories/TidyInv.v
theories/TidySafe.v
theories/TidyExamples.v
theories/PropTidy.v
theories/SpecEnd.v
theories/Multi.v
theories/EndBase.v
theories/EndStep.v
theories/EndProof.v
theories/EndExamples.v
theories/PropEnd.v
theories/SpecQuiet.v
theories/QuietList.v
theories/QuietNeat.v
theories/QuietOne.v
theories/QuietExamples.v
theories/PropQuiet.v
theories/CountPhase.v
theories/CountProof.v
theories/CountInv.v
theories/SpecCount.v
theories/CountMain.v
theories/CountExamples.v
theories/PropCount.v
theories/CowModel.v
theories/CowSpec.v
theories/CowProof.v
theories/CowExamples.v
theories/PropCow.v
theories/IntSeq.v
theories/IntSeqProof.v
theories/PropSeq.v
theories/OptRelProof.v
theories/PropOptRel.v
theories/OptModel.v
theories/OptSpec.v
theories/OptProof.v
theories/OptFacts.v
theories/OptExamples.v
theories/PropOpt.v
theories/OptRefModel.v
theories/OptRefProof.v
theories/PropOptRef.v
theories/VoidSig.v
theories/PropVoid.v
theories/SpecObject.v
theories/ObjProof.v
theories/ObjExamples.v
theories/PropObject.v
theories/TyModel.v
theories/TySpec.v
theories/TyProof.v
theories/TyExamples.v
theories/PropTy.v
theories/OverModel.v
theories/OverSpec.v
theories/OverProof.v
theories/OverExamples.v
theories/PropOver.v
theories/OverRefModel.v
theories/OverRefSpec.v
theories/OverRefProof.v
theories/OverRefExamples.v
theories/PropOverRef.v
theories/OverVoidModel.v
theories/OverVoidSpec.v
theories/OverVoidProof.v
theories/PropOverVoid.v
theories/OverSlotModel.v
theories/OverSlotProof.v
theories/PropOverSlot.v
theories/OverConnModel.v
theories/OverConnProof.v
theories/PropOverConn.v
theories/OverHandModel.v
theories/OverHandSpec.v
theories/OverHandProof.v
theories/PropOverHand.v
