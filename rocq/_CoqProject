-Q theories Verif
theories/Base.v
theories/Model.v
theories/ModelSeq.v
theories/ListAlg.v
theories/ModelApi.v
theories/Spec.v
theories/Exec.v
theories/Scope.v
theories/Sep.v
theories/Prim.v
theories/Tree.v
theories/NodeOps.v
theories/Update.v
theories/Insert.v
theories/InsertLoop.v
theories/InsertSeg.v
theories/Erase.v
theories/EraseLoop.v
theories/EraseSeg.v
theories/IterFind.v
theories/Iter.v
theories/IterCount.v
theories/SeqIter.v
theories/SeqOps.v
theories/SeqMem.v
theories/SeqAlg.v
theories/SeqApi.v
theories/SeqList.v
theories/Refine.v
theories/RefineObs.v
theories/RefineMod.v
theories/RefineTwo.v
theories/RefineSeg.v
theories/Heap.v
theories/Stored.v
theories/LocalIns.v
theories/Reach.v
theories/RemoveSelf.v
theories/Alias.v
theories/Sound.v
theories/Unique.v
theories/Effects.v
theories/Canon.v
theories/Frame.v
theories/Threads.v
theories/Setup.v
theories/PropsHistory.v
theories/PropsBasic.v
theories/PropsIter.v
theories/PropsMemory.v
theories/Probe.v
theories/Track.v
theories/PropsSafety.v
theories/PropsContainers.v
theories/PropsAssign.v
theories/PropsList.v
theories/PropsSegment.v
theories/PropsAlias.v
theories/PropsBack.v
theories/PropsShift.v
theories/PropsCtor.v
theories/Quiet.v
theories/PropsCost.v
theories/Honest.v
theories/PropsExn.v
theories/PropsPred.v
theories/Asked.v
theories/PropsAsked.v
theories/PropsValid.v
theories/PropsThreads.v
theories/Arrays.v
theories/Cost.v
theories/Ticks.v
theories/Credits.v
theories/Loops.v
theories/Sweep.v
theories/Complexity.v
theories/Effort.v
theories/Bulk.v
theories/Walk.v
theories/Linear.v
theories/LinearApi.v
theories/PropsTime.v
theories/PropsWalk.v
theories/PropsConst.v
theories/World.v
theories/Defects.v
theories/PropsLimits.v
theories/Copies.v
theories/PropsCopies.v
theories/Moves.v
theories/MovesApi.v
theories/PropsMoves.v
theories/PropsSelf.v
theories/PropsShape.v
theories/Grow.v
theories/PropsGrow.v
theories/PropsLocal.v
theories/ManyIns.v
theories/LocalMany.v
theories/LocalErase.v
theories/View.v
theories/PropsSchedule.v
theories/PropsReuse.v
theories/Examples.v
