-Q theories Verif
theories/AccessModel.v
theories/AccessSpec.v
theories/AccessProof.v
theories/UserModel.v
theories/UserProof.v
theories/PropertiesAccess.v
theories/SchedModel.v
theories/SchedSpec.v
theories/SchedBase.v
theories/SchedInv1.v
theories/SchedInv2.v
theories/SchedInv3.v
theories/SchedInv4.v
theories/SchedInv5.v
theories/SchedInv6.v
theories/SchedInv7.v
theories/SchedInv8.v
theories/SchedFront.v
theories/SchedThm.v
theories/SchedBarrier.v
theories/SchedLive.v
theories/SchedTerm.v
theories/SchedStack.v
theories/SchedSeq.v
theories/SchedMore.v
theories/SchedEx.v
theories/PropertiesSched.v
theories/BitsModel.v
theories/BitsProof.v
theories/PropertiesBits.v
theories/SyncModel.v
theories/SyncProof.v
theories/PropertiesSync.v
theories/MiscModel.v
theories/MiscProof.v
theories/StreamModel.v
theories/StreamProof.v
theories/PropertiesMisc.v
theories/ItemModel.v
theories/ItemProof.v
theories/ChunkModel.v
theories/ChunkSpec.v
theories/ChunkProof.v
theories/ChunkConModel.v
theories/ChunkConProof.v
theories/AtomModel.v
theories/AtomProof.v
theories/ChunkEx.v
theories/PropertiesList.v
theories/PropertiesItem.v
theories/PropertiesChunk.v
theories/PropertiesAtom.v
theories/AllocModel.v
theories/AllocProof.v
theories/AllocThm.v
theories/AllocEx.v
theories/PropertiesAlloc.v
theories/HandleModel.v
theories/HandleProof.v
theories/PropertiesHandle.v
theories/DemoteModel.v
theories/DemoteProof.v
theories/DemoteThm.v
theories/PropertiesDemote.v
theories/YieldModel.v
theories/YieldProof.v
theories/YieldThm.v
theories/PropertiesYield.v
theories/WaitModel.v
theories/WaitProof.v
theories/PropertiesWait.v
theories/RelaxModel.v
theories/RelaxProof.v
theories/PropertiesRelax.v
theories/ArenaModel.v
theories/PropertiesArena.v
theories/FinalModel.v
theories/PropertiesFinal.v
theories/PoolModel.v
theories/PoolProof.v
theories/PropertiesPool.v
theories/MarkModel.v
theories/MarkProof.v
theories/MarkThm.v
theories/MarkSleep.v
theories/PropertiesMark.v
theories/NestSpec.v
theories/SchedNest.v
theories/PropertiesNest.v
theories/SchedMany.v
theories/PropertiesMany.v
theories/SchedValue.v
theories/SchedFree.v
theories/PropertiesValue.v
theories/HbModel.v
theories/HbSpec.v
theories/HbBase.v
theories/HbInv.v
theories/HbStep.v
theories/HbGlob.v
theories/HbGlob2.v
theories/HbFrame.v
theories/HbThm.v
theories/HbRace.v
theories/HbFree.v
theories/PropertiesHb.v
theories/PropertiesFree.v
theories/PauseModel.v
theories/PauseSpec.v
theories/PauseProof.v
theories/PauseInv.v
theories/PauseThm.v
theories/PauseLive.v
theories/PauseJoin.v
theories/PauseTerm.v
theories/PropertiesPause.v
theories/NestValue.v
theories/PropertiesJoin.v
theories/FreeNest.v
theories/PropertiesMix.v
theories/AppModel.v
theories/AppSpec.v
theories/AppProof.v
theories/AppChol.v
theories/AppMore.v
theories/AppCount.v
theories/PropertiesChol.v
theories/AppLife.v
theories/PropertiesLife.v
theories/PropertiesBarrier.v
theories/HbJoin.v
theories/PauseHb.v
theories/PauseHbProof.v
theories/PauseHbThm.v
theories/PropertiesPauseHb.v
theories/RandModel.v
theories/PropertiesRand.v
theories/RingModel.v
theories/RingProof.v
theories/PropertiesRing.v
theories/AllocLive.v
theories/PropertiesContend.v
theories/UtilModel.v
theories/UtilProof.v
theories/PropertiesUtil.v
theories/AlignModel.v
theories/PropertiesAlign.v
theories/FormatSpec.v
theories/FormatModel.v
theories/FormatProof.v
theories/PropertiesFormat.v
theories/HwModel.v
theories/PropertiesHw.v
theories/PlaceModel.v
theories/PropertiesPlace.v
theories/ArgModel.v
theories/PropertiesArg.v
theories/BindModel.v
theories/PropertiesBind.v
theories/DemoModel.v
theories/PropertiesDemo.v
theories/RepoTests.v
theories/NullModel.v
theories/PropertiesNull.v
