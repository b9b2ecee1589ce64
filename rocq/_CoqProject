-Q theories Verif
theories/Base.v
theories/Num.v
theories/MathUtils.v
theories/Knn.v
theories/Env.v
theories/Centroid.v
theories/CManager.v
theories/History.v
theories/DataSpec.v
theories/MgrSpec.v
theories/Wp.v
theories/NumFacts.v
theories/SearchSpec.v
theories/KnnProofs.v
theories/DataFacts.v
theories/Exact.v
theories/CentroidProofs.v
theories/DistributeProofs.v
theories/PortionsProofs.v
theories/CMProofs.v
theories/CMProofs2.v
theories/CMProofs3.v
theories/HistoryProofs.v
theories/RealNum.v
theories/MathSpec.v
theories/MathProofs.v
theories/Props01Lemmas.v
theories/Props01.v
theories/CHistory.v
theories/TestEnv.v
theories/Props02Lemmas.v
theories/FloatSpec.v
theories/FloatRound.v
theories/FloatOps.v
theories/FloatMean.v
theories/Props02.v
theories/Props03Lemmas.v
theories/Props03.v
theories/Proc.v
theories/Server.v
theories/ServerSpec.v
theories/Owns.v
theories/ServerFacts.v
theories/MixProofs.v
theories/Slots.v
theories/ServerProofs.v
theories/ClusterProofs.v
theories/SeqProofs.v
theories/SeqProofs2.v
theories/StealProofs.v
theories/SeqProofs3.v
theories/Alone.v
theories/TestWorld.v
theories/Props04Lemmas.v
theories/Props04.v
theories/Core.v
theories/EventLoop.v
theories/CoreSpec.v
theories/CoreProofs.v
theories/SystemProofs.v
theories/CoreSeq.v
theories/Props05Lemmas.v
theories/JsonSpec.v
theories/JsonProofs.v
theories/Props05.v
theories/LoopSpec.v
theories/LoopProofs.v
theories/LoopProofs2.v
theories/Fetch.v
theories/FetchProofs.v
theories/Service.v
theories/Props06Lemmas.v
theories/Props06.v
theories/MgrSpec2.v
theories/CMProofs4.v
theories/CMProofs5.v
theories/Props07Lemmas.v
theories/Props07.v
theories/Locks.v
theories/LockSpec.v
theories/LocksProofs.v
theories/LocksProofs2.v
theories/LocksProofs3.v
theories/LocksProofs4.v
theories/LockCase.v
theories/Props08Lemmas.v
theories/Props08.v
theories/Uniform.v
theories/Props09Lemmas.v
theories/MixCase.v
theories/Props09.v
theories/LinearSpec.v
theories/LinearProofs.v
theories/LinearProofs2.v
theories/LinearCase.v
theories/Props10Lemmas.v
theories/LookupProofs.v
theories/ReqSpec.v
theories/ReqProofs.v
theories/ClientSpec.v
theories/ClientProofs.v
theories/Props10.v
theories/QuerySpec.v
theories/QueryProofs.v
theories/QueryCase.v
theories/Props11.v
theories/Memory.v
theories/MemProofs.v
theories/MemCentroid.v
theories/MemSim.v
theories/MemCenProofs.v
theories/MemManager.v
theories/MemMgrProofs.v
theories/MemMgrProofs2.v
theories/MemSpec.v
theories/MemTop.v
theories/MemCase.v
theories/MemFinal.v
theories/MemRoom.v
theories/Props12.v
theories/FloatMargin.v
theories/TaskSpec.v
theories/TaskProofs.v
theories/ThreshProofs.v
theories/Log.v
theories/LogSpec.v
theories/LogProofs.v
theories/TaskCase.v
theories/Props13.v
theories/FloatSqrt.v
theories/FloatTerm.v
theories/DistSpec.v
theories/FloatDist.v
theories/FloatDot.v
theories/FloatCos.v
theories/FloatSearch.v
theories/FloatFind.v
theories/Props14.v
theories/OriginMgr.v
theories/OriginSpec.v
theories/OriginProofs.v
theories/CopiesProofs.v
theories/LossProofs.v
theories/Props15.v
theories/ExpiryMgr.v
theories/ExpiryTime.v
theories/ExpirySpec.v
theories/ExpiryProofs.v
theories/ExpiryCase.v
theories/Props16.v
theories/UpkeepSpec.v
theories/UpkeepProofs.v
theories/Props17.v
theories/SettleSpec.v
theories/SettleSteal.v
theories/SettleProofs.v
theories/GainSteal.v
theories/GainProofs.v
theories/SettleMore.v
theories/SettleCase.v
theories/GainCase.v
theories/Props18.v
theories/FuelSpec.v
theories/FuelProofs.v
theories/BalanceEnds.v
theories/LoopEnds.v
theories/Props19.v
theories/KnnTies.v
theories/Props20.v
theories/Listen.v
theories/ListenSpec.v
theories/ListenProofs.v
theories/ListenCase.v
theories/Props21.v
theories/Routes.v
theories/RoutesProofs.v
theories/Json.v
theories/BodySpec.v
theories/BodyProofs.v
theories/RoutesCase.v
theories/Props22.v
theories/RestSpec.v
theories/SettleKeep.v
theories/RestProofs.v
theories/RestMore.v
theories/RestCase.v
theories/Props23.v
theories/LogText.v
theories/LogTextSpec.v
theories/LogTextProofs.v
theories/LogTextCase.v
theories/Props24.v
theories/Alloc.v
theories/AllocSpec.v
theories/AllocProofs.v
theories/Props25.v
theories/FloatRepairSpec.v
theories/FloatRepair.v
theories/Props26.v
theories/Fused.v
theories/Props27.v
theories/Reset.v
theories/ResetProofs.v
theories/ResetCopies.v
theories/ResetCase.v
theories/Props28.v
theories/JsonText.v
theories/TextSpec.v
theories/TextParse.v
theories/TextUtf8.v
theories/TextBytes.v
theories/TextTime.v
theories/TextLoose.v
theories/TextNumSpec.v
theories/FloatText.v
theories/TextNum.v
theories/TextWholeSpec.v
theories/TextWhole.v
theories/TextCase.v
theories/Props29.v
theories/ShowFloat.v
theories/ShowSpec.v
theories/ShowShort.v
theories/ShowText.v
theories/ShowWhole.v
theories/Props30.v
theories/Gob.v
theories/GobWire.v
theories/GobSpec.v
theories/GobProofs.v
theories/GobCalls.v
theories/GobCase.v
theories/Props31.v
theories/Zones.v
theories/ZonesProofs.v
theories/ZonesCase.v
theories/Trip.v
theories/Sendable.v
theories/TripCase.v
theories/Props32.v
theories/Shared.v
theories/SharedProofs.v
theories/SharedStop.v
theories/Props33.v
theories/Settle.v
theories/Props34.v
theories/Closest.v
theories/Props35.v
theories/Handed.v
theories/Props36.v
