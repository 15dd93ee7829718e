-Q theories Verif
theories/SpecRound.v
theories/Base.v
theories/BFModel.v
theories/StoreInv.v
theories/Own.v
theories/EngInv.v
theories/ApplyProof.v
theories/BinopProof.v
theories/ReduceProof.v
theories/EngineProof.v
theories/OpProof.v
theories/MultiProof.v
theories/StepProof.v
theories/RunProof.v
theories/BatchModel.v
theories/NestProof.v
theories/ITEModel.v
theories/ITEProof.v
theories/MgrModel.v
theories/QProof.v
theories/GCProof.v
theories/VarProof.v
theories/ApiModel.v
theories/MInv.v
theories/ApiProof.v
theories/ApiOps.v
theories/ApiStruct.v
theories/ApiVar.v
theories/ComposeModel.v
theories/ComposeProof.v
theories/CofactorModel.v
theories/CofSem.v
theories/CofactorProof.v
theories/GraphModel.v
theories/ReduceOpModel.v
theories/ReduceOpProof.v
theories/GraphProof.v
theories/GraphCube.v
theories/GraphFrac.v
theories/GraphMarks.v
theories/GraphSupp.v
theories/GraphFProf.v
theories/GraphSem.v
theories/GraphCall.v
theories/ReduceApi.v
theories/AssocModel.v
theories/AssocProof.v
theories/QuantModel.v
theories/QuantProof.v
theories/CodecModel.v
theories/CodecProof.v
theories/DumpModel.v
theories/DumpProof.v
theories/UndumpProof.v
theories/DumpCall.v
theories/ReorderModel.v
theories/ReorderProof.v
theories/ReorderStep.v
theories/ReorderRen.v
theories/ReorderInit.v
theories/ReorderBack.v
theories/ReorderMgr.v
theories/ReorderCover.v
theories/SubstModel.v
theories/QuantBFModel.v
theories/QuantApiModel.v
theories/SwapModel.v
theories/SwapStep.v
theories/SwapProof.v
theories/PlaceProof.v
theories/SubstProof.v
theories/QuantBFProof.v
theories/QuantBFRun.v
theories/QuantBFEx.v
theories/QuantBFRel.v
theories/QuantBFOps.v
theories/QuantApi.v
theories/SubstApi.v
theories/PipeModel.v
theories/PipeProof.v
theories/PackModel.v
theories/PackTrans.v
theories/BFReorderModel.v
theories/BFReorderSim.v
theories/BFReorderSwap.v
theories/BFReorderMove.v
theories/BFReorderNode.v
theories/BFReorderExch.v
theories/BFReorderPass.v
theories/BFReorderFree.v
theories/BFReorderInv.v
theories/MoveTrans.v
theories/BFReorderMgr.v
theories/BFSiftModel.v
theories/AutoModel.v
theories/BFSiftProof.v
theories/BFSiftMgr.v
theories/AutoProof.v
theories/SpecMem.v
theories/BFReorderMem.v
theories/PackTable.v
theories/PackProof.v
theories/SpecApi.v
theories/SpecAssoc.v
theories/WorldProof.v
theories/Client.v
theories/ApiLemmas.v
theories/ApiFacts.v
theories/PropsApi.v
theories/AssocWorld.v
theories/AssocFacts.v
theories/PropsAssoc.v
theories/SpecReorder.v
theories/ReorderFacts.v
theories/PropsReorder.v
theories/BFReorderFacts.v
theories/PropsBFReorder.v
theories/AutoFacts.v
theories/PropsAuto.v
theories/SpecPack.v
theories/PackWorld.v
theories/PropsPack.v
theories/SpecQuant.v
theories/QuantWorld.v
theories/QuantFacts.v
theories/PropsQuant.v
theories/SpecSubst.v
theories/ComposeWorld.v
theories/PropsCompose.v
theories/SubstWorld.v
theories/PropsSubst.v
theories/SwapWorld.v
theories/PropsSwap.v
theories/SpecPipe.v
theories/PipeWorld.v
theories/PropsPipe.v
theories/SpecCofactor.v
theories/NearProof.v
theories/CofactorWorld.v
theories/PropsCofactor.v
theories/SpecGraph.v
theories/GraphApi.v
theories/GraphFacts.v
theories/PropsGraph.v
theories/SpecReduce.v
theories/ReduceWorld.v
theories/PropsReduce.v
theories/SpecDump.v
theories/DumpFacts.v
theories/PropsDump.v
theories/PrintModel.v
theories/SpecPrint.v
theories/PrintProof.v
theories/PrintFacts.v
theories/PropsPrint.v
theories/BitsModel.v
theories/BitsProof.v
theories/RandModel.v
theories/RandProof.v
theories/SpecWords.v
theories/WordsLemmas.v
theories/PropsWords.v
theories/HashModel.v
theories/SpecHash.v
theories/HashProof.v
theories/HashFacts.v
theories/PropsHash.v
theories/PoolModel.v
theories/SpecPool.v
theories/PoolBase.v
theories/PoolProof.v
theories/RecProof.v
theories/PoolFacts.v
theories/PropsPool.v
theories/BuddyModel.v
theories/SpecBuddy.v
theories/BuddyArith.v
theories/BuddyProof.v
theories/BuddyOps.v
theories/BuddyFacts.v
theories/PropsBuddy.v
theories/CppModel.v
theories/SpecCpp.v
theories/CppProof.v
theories/CppFacts.v
theories/PropsCpp.v
theories/InteractModel.v
theories/InteractProof.v
theories/PropsInteract.v
theories/BlockModel.v
theories/SpecBlock.v
theories/BlockProof.v
theories/BlockExchange.v
theories/PropsBlock.v
theories/SearchModel.v
theories/SpecSearch.v
theories/SearchProof.v
theories/SearchTree.v
theories/PropsSearch.v
theories/RangeModel.v
theories/SpecRange.v
theories/RangeProof.v
theories/RangeFacts.v
theories/PropsRange.v
theories/BddPrintModel.v
theories/SpecBddPrint.v
theories/BddPrintProof.v
theories/BddPrintFacts.v
theories/PropsBddPrint.v
theories/FProfModel.v
theories/FProfMulti.v
theories/FProfFacts.v
theories/PropsFProf.v
theories/FProfPrint.v
theories/FProfPrintFacts.v
theories/PropsFProfPrint.v
theories/FProfSingle.v
theories/PropsFProfSingle.v
theories/RangeQModel.v
theories/RangeQProof.v
theories/PropsRangeQ.v
theories/RangePModel.v
theories/RangePProof.v
theories/PropsRangeP.v
theories/ProfSame.v
theories/PropsProfSame.v
theories/SizeSum.v
theories/PropsSizeSum.v
theories/ProfTotal.v
theories/PropsProfTotal.v
