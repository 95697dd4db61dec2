-Q theories Verif
theories/Common.v
theories/RingModel.v
theories/RingSpec.v
theories/RingProofs.v
theories/RingProps.v
theories/VSetModel.v
theories/VSetProg.v
theories/VSetSpec.v
theories/VSetTree.v
theories/VSetRotate.v
theories/VSetInsert.v
theories/VSetRemove.v
theories/VSetLookup.v
theories/VSetList.v
theories/VSetOps.v
theories/VSetProofs.v
theories/VSetBalance.v
theories/VSetProps.v
theories/DecimalModel.v
theories/DecimalSpec.v
theories/DecimalProofs.v
theories/DecimalText.v
theories/DecimalProps.v
theories/QListModel.v
theories/QListSpec.v
theories/QListProofs.v
theories/QListRel.v
theories/QListSim.v
theories/QListProps.v
theories/ObserverModel.v
theories/ObserverSpec.v
theories/ObserverProofs.v
theories/ObserverProps.v
theories/ObsSetModel.v
theories/ObsSetSpec.v
theories/ObsSetProofs.v
theories/ObsSetProps.v
theories/UQueueModel.v
theories/UQueueSpec.v
theories/UQueueProofs.v
theories/UQueueProps.v
theories/AStoreModel.v
theories/AStoreSpec.v
theories/AStoreProofs.v
theories/AStoreProps.v
theories/HashStreamModel.v
theories/HashStreamSpec.v
theories/HashStreamProofs.v
theories/HashStreamProps.v
theories/Int2ArrayModel.v
theories/Int2ArrayProps.v
theories/Crc64Model.v
theories/Crc64Props.v
theories/HashCrcProps.v
theories/CodecModel.v
theories/CodecSpec.v
theories/CodecProofs.v
theories/CodecLocal.v
theories/CodecProps.v
theories/VtsModel.v
theories/VtsSpec.v
theories/VtsProofs.v
theories/VtsEvolve.v
theories/VtsProps.v
theories/VtsNameProps.v
theories/CompareModel.v
theories/CompareProps.v
theories/BitMapModel.v
theories/BitMapProps.v
theories/IntervalModel.v
theories/IntervalProofs.v
theories/IntervalProps.v
theories/TimerModel.v
theories/TimerProps.v
theories/SleepModel.v
theories/SleepProps.v
theories/AggregatorModel.v
theories/AggregatorProps.v
theories/ScopeGuardModel.v
theories/ScopeGuardProps.v
theories/PoolModel.v
theories/PoolProps.v
theories/MemberListModel.v
theories/MemberListProps.v
theories/CoroModel.v
theories/CoroSpec.v
theories/CoroProofs.v
theories/CoroProps.v
theories/GeneratorModel.v
theories/GeneratorProps.v
theories/AsyncGenModel.v
theories/AsyncGenProps.v
theories/WatchDogModel.v
theories/WatchDogProps.v
theories/StreamRel.v
theories/VtsLocal.v
theories/VtsTyped.v
theories/PersistModel.v
theories/PersistSpec.v
theories/PersistProofs.v
theories/PersistProps.v
theories/InPlaceModel.v
theories/InPlaceProps.v
theories/CmdLineModel.v
theories/CmdLineSpec.v
theories/CmdLineProofs.v
theories/CmdLineProps.v
theories/TestRunModel.v
theories/TestRunProps.v
theories/FactoryModel.v
theories/FactoryProps.v
theories/RawStreamModel.v
theories/RawStreamSpec.v
theories/RawStreamProps.v
theories/HandleModel.v
theories/HandleProps.v
theories/HandleExact.v
theories/UniquePtrProps.v
theories/WireSpec.v
theories/WireProps.v
theories/EnumModel.v
theories/EnumProps.v
theories/TypesModel.v
theories/TypesProps.v
theories/FloatModel.v
theories/FloatProofs.v
theories/DecFloatModel.v
theories/DecFloatProps.v
theories/MultiModel.v
theories/MultiProps.v
theories/SingletonModel.v
theories/SingletonProps.v
theories/UtilModel.v
theories/UtilProps.v
theories/RingThrowModel.v
theories/RingThrowProps.v
theories/HashFailModel.v
theories/HashFailProps.v
theories/PlainReaderModel.v
theories/PlainReaderProps.v
theories/RingIterModel.v
theories/RingIterProps.v
theories/VSetThrowModel.v
theories/VSetThrowProps.v
theories/TextConvModel.v
theories/TextConvProps.v
theories/FixedStringModel.v
theories/FixedStringProps.v
theories/TimeTextModel.v
theories/TimeTextProps.v
theories/UnorderedModel.v
theories/UnorderedProps.v
theories/VtsAnySpec.v
theories/VtsAnyProofs.v
theories/VtsAnyProps.v
theories/IntervalIterProps.v
theories/AggReModel.v
theories/AggReProps.v
theories/DecSingleModel.v
theories/DecSingleProps.v
theories/NotifyNestModel.v
theories/NotifyNestProps.v
theories/TaskVarModel.v
theories/TaskVarSpec.v
theories/TaskVarProofs.v
theories/TaskVarProps.v
theories/TaskVarValue.v
theories/CodecSim.v
theories/VtsAgainModel.v
theories/VtsAgainProps.v
theories/JStopModel.v
theories/JStopSpec.v
theories/JStopWord.v
theories/JStopAbs.v
theories/JStopInv.v
theories/JStopInv2.v
theories/JStopLog.v
theories/JStopRefine.v
theories/JStopProps.v
theories/JCvModel.v
theories/JCvSpec.v
theories/JCvInv.v
theories/JCvInvB.v
theories/JCvInvC.v
theories/JCvProps.v
theories/JThreadModel.v
theories/JThreadSpec.v
theories/JThreadInv.v
theories/JThreadProps.v
theories/VSetStable.v
theories/VSetNeighbours.v
theories/ASConcModel.v
theories/ASConcSpec.v
theories/ASConcProps.v
theories/PoolFinModel.v
theories/PoolFinProps.v
theories/UQResModel.v
theories/UQResProps.v
theories/WdSleepModel.v
theories/WdSleepProps.v
theories/CompKeyModel.v
theories/CompKeyProps.v
theories/GenVarModel.v
theories/GenVarSpec.v
theories/GenVarProps.v
theories/AsyncDropModel.v
theories/AsyncDropProps.v
theories/PackModel.v
theories/PackProps.v
theories/ObsThrowModel.v
theories/ObsThrowSpec.v
theories/ObsThrowProps.v
theories/GroupObsModel.v
theories/GroupObsSpec.v
theories/GroupObsProps.v
theories/ReentModel.v
theories/ReentSpec.v
theories/ReentProps.v
theories/MemStreamModel.v
theories/MemStreamSpec.v
theories/MemStreamProps.v
theories/QIterModel.v
theories/QIterSpec.v
theories/QIterProps.v
theories/CoTimerModel.v
theories/CoTimerSpec.v
theories/CoTimerProps.v
theories/MirMoveModel.v
theories/MirMoveSpec.v
theories/MirMoveProps.v
theories/VSetCtorModel.v
theories/VSetCtorSpec.v
theories/VSetCtorProps.v
theories/CoOwnModel.v
theories/CoOwnSpec.v
theories/CoOwnProps.v
theories/GroupThrowModel.v
theories/GroupThrowSpec.v
theories/GroupThrowProps.v
theories/NotifyThrowModel.v
theories/NotifyThrowSpec.v
theories/NotifyThrowProps.v
theories/GroupMoveModel.v
theories/GroupMoveSpec.v
theories/GroupMoveProps.v
theories/PlainSerialModel.v
theories/PlainSerialProps.v
theories/Assumptions.v
