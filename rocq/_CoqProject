-Q theories Verif
theories/Base.v
theories/WireModel.v
theories/WireSpec.v
theories/WireWriterProofs.v
theories/WireReaderProofs.v
theories/WireProps.v
theories/RequestModel.v
theories/RequestSpec.v
theories/RequestProofs.v
theories/RequestProps.v
theories/TimerModel.v
theories/TimerSpec.v
theories/TimerProofs.v
theories/TimerInv.v
theories/TimerProps.v
theories/TimerLoopModel.v
theories/TimerLoopProps.v
theories/PrimModel.v
theories/PrimSpec.v
theories/PrimProofs.v
theories/PrimWriter.v
theories/PrimProps.v
theories/CodecModel.v
theories/CodecSpec.v
theories/CodecProofs.v
theories/CodecRead.v
theories/CodecProps.v
theories/HolderModel.v
theories/HolderSpec.v
theories/HolderProofs.v
theories/HolderPolite.v
theories/HolderProps.v
theories/ServerModel.v
theories/ServerSpec.v
theories/ServerProofs.v
theories/ServerTrace.v
theories/ServerIds.v
theories/ServerEnd.v
theories/ServerProps.v
theories/BufferModel.v
theories/BufferSpec.v
theories/BufferProofs.v
theories/BufferTrace.v
theories/BufferOrder.v
theories/BufferProps.v
theories/MultiModel.v
theories/MultiSpec.v
theories/MultiProofs.v
theories/MultiTrace.v
theories/MultiLive.v
theories/MultiProps.v
theories/ContextModel.v
theories/ContextSpec.v
theories/ContextProofs.v
theories/ContextProps.v
theories/ParModel.v
theories/ParSpec.v
theories/ParProofs.v
theories/ParProps.v
theories/ClientModel.v
theories/ClientSpec.v
theories/ClientProofs.v
theories/ClientProps.v
theories/SboxModel.v
theories/SboxSpec.v
theories/SboxProofs.v
theories/SboxProps.v
theories/ConfModel.v
theories/ConfProps.v
theories/ListenModel.v
theories/ListenSpec.v
theories/ListenProofs.v
theories/ListenProps.v
theories/AutoModel.v
theories/AutoSpec.v
theories/AutoProofs.v
theories/AutoProps.v
theories/BalModel.v
theories/BalSpec.v
theories/BalProofs.v
theories/BalProps.v
theories/GenModel.v
theories/GenSpec.v
theories/GenProofs.v
theories/GenProps.v
theories/EpochModel.v
theories/EpochSpec.v
theories/EpochProps.v
theories/SafeSpec.v
theories/SafeProofs.v
theories/SafeProps.v
theories/LocalProofs.v
theories/LocalProps.v
theories/RegModel.v
theories/RegSpec.v
theories/RegProofs.v
theories/RegProps.v
theories/PoolModel.v
theories/PoolSpec.v
theories/PoolWriter.v
theories/PoolProofs.v
theories/PoolCodec.v
theories/PoolProps.v
theories/RpoolModel.v
theories/RpoolSpec.v
theories/RpoolProofs.v
theories/RpoolProps.v
theories/FillModel.v
theories/FillProofs.v
theories/NomModel.v
theories/NomSpec.v
theories/NomProofs.v
theories/NomRec.v
theories/NomProps.v
theories/HeapsModel.v
theories/HeapsSpec.v
theories/HeapsProofs.v
theories/HeapsProps.v
theories/RecWeak.v
theories/NomLaySpec.v
theories/NomLay.v
theories/NomLayProps.v
theories/NomRdModel.v
theories/NomRdSpec.v
theories/NomRdProofs.v
theories/NomRdClass.v
theories/NomRdProps.v
theories/PairModel.v
theories/PairSpec.v
theories/PairWire.v
theories/PairLink.v
theories/PairProofs.v
theories/PairLive.v
theories/PairProps.v
theories/TripSpec.v
theories/TripProofs.v
theories/TripProps.v
theories/DueModel.v
theories/DueSpec.v
theories/DueProofs.v
theories/DueTrace.v
theories/DueStory.v
theories/DueRest.v
theories/DueProps.v
theories/TreeModel.v
theories/TreeSpec.v
theories/TreeProofs.v
theories/TreeBirth.v
theories/TreeCancel.v
theories/TreeHistory.v
theories/TreeProps.v
theories/RoundModel.v
theories/RoundSpec.v
theories/RoundProofs.v
theories/RoundProps.v
theories/DestModel.v
theories/DestSpec.v
theories/DestProofs.v
theories/DestProps.v
theories/FloatModel.v
theories/FloatSpec.v
theories/FloatProofs.v
theories/FloatProps.v
theories/SortModel.v
theories/SortProps.v
theories/CallModel.v
theories/CallSpec.v
theories/CallProps.v
theories/SizedModel.v
theories/SizedProps.v
theories/CauseSpec.v
theories/CauseProps.v
theories/TreeTidy.v
theories/ReturnSpec.v
theories/TreeReturn.v
theories/ReturnProps.v
theories/RoundTimer.v
theories/TreeOrder.v
theories/FlowSpec.v
theories/TreeLive.v
theories/FlowProps.v
theories/GraceModel.v
theories/GraceSpec.v
theories/GraceEnd.v
theories/GraceProofs.v
theories/GraceLast.v
theories/GraceLive.v
theories/GraceProps.v
theories/TameSpec.v
theories/TameProofs.v
theories/TameProps.v
theories/FleetModel.v
theories/FleetSpec.v
theories/FleetClient.v
theories/FleetNotes.v
theories/FleetHolder.v
theories/FleetProofs.v
theories/FleetInv.v
theories/FleetProps.v
theories/FleetLossProps.v
theories/SystemSpec.v
theories/SystemProps.v
theories/KindModel.v
theories/KindSpec.v
theories/KindProps.v
theories/SystemRestProps.v
theories/RunModel.v
theories/RunSpec.v
theories/RunProofs.v
theories/RunProps.v
theories/SelModel.v
theories/SelSpec.v
theories/SelProofs.v
theories/SelProps.v
theories/TagModel.v
theories/TagSpec.v
theories/TagProps.v
theories/EachModel.v
theories/EachSpec.v
theories/EachProofs.v
theories/EachProps.v
theories/FloatRound.v
theories/NestModel.v
theories/NestSpec.v
theories/NestProps.v
theories/CallersModel.v
theories/CallersSpec.v
theories/CallersProps.v
theories/RestProps.v
theories/ResultsModel.v
theories/ResultsSpec.v
theories/ResultsProps.v
theories/PingProps.v
theories/RejectProps.v
