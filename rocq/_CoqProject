-Q theories Verif
theories/Base.v
theories/FramingModel.v
theories/FramingProofs.v
theories/FramingProps.v
theories/CallerModel.v
theories/CallerProofs.v
theories/CallerProps.v
theories/ResultModel.v
theories/ResultProps.v
theories/LockModel.v
theories/LockProofs.v
theories/LockProps.v
theories/PoolModel.v
theories/PoolProofs.v
theories/PoolRegistry.v
theories/PoolProps.v
theories/WaitModel.v
theories/WaitProps.v
theories/Dict.v
theories/ConfigModel.v
theories/ConfigProofs.v
theories/ConfigProps.v
theories/IndexProps.v
theories/RouterModel.v
theories/RouterProps.v
theories/MainModel.v
theories/MainProofs.v
theories/MainIdle.v
theories/MainProps.v
theories/RecoverModel.v
theories/RecoverProps.v
theories/SerModel.v
theories/SerSpec.v
theories/SerMachine.v
theories/SerProofs.v
theories/SerEnd.v
theories/SerProps.v
theories/CopyModel.v
theories/CopyProofs.v
theories/CopyProps.v
theories/MessageModel.v
theories/MessageProps.v
theories/LruModel.v
theories/LruProps.v
theories/DispatchModel.v
theories/DispatchProps.v
theories/BatchModel.v
theories/BatchProps.v
theories/GenModel.v
theories/GenProps.v
theories/PortModel.v
theories/PortProps.v
theories/RetryModel.v
theories/RetryProps.v
theories/PyStr.v
theories/AddrModel.v
theories/AddrProps.v
theories/SizeModel.v
theories/SizeProps.v
theories/StoreModel.v
theories/StoreProps.v
theories/StoreWait.v
theories/StoreWaitProps.v
theories/StoreTalk.v
theories/StoreTalkProps.v
theories/StoreWatchProps.v
theories/PercentileModel.v
theories/PercentileProps.v
theories/MetricModel.v
theories/MetricProps.v
theories/ProfileModel.v
theories/ProfileProps.v
theories/CycleModel.v
theories/CycleProps.v
theories/DummyModel.v
theories/DummyProps.v
theories/GroupModel.v
theories/GroupProps.v
theories/ShmModel.v
theories/ShmProps.v
theories/NdModel.v
theories/NdProps.v
theories/RefModel.v
theories/RefProps.v
theories/LayoutModel.v
theories/LayoutProps.v
theories/MarkerModel.v
theories/MarkerProps.v
theories/TorchModel.v
theories/TorchProps.v
theories/StoreWireModel.v
theories/StoreWireProofs.v
theories/StoreWireProps.v
theories/StoreSessModel.v
theories/StoreSessProps.v
theories/WorkerModel.v
theories/WorkerProps.v
theories/UvModel.v
theories/UvProps.v
theories/WaitForModel.v
theories/WaitForProps.v
theories/ErrorModel.v
theories/ErrorProps.v
theories/CollModel.v
theories/CollProps.v
theories/NcclModel.v
theories/NcclProps.v
theories/ChannelModel.v
theories/ChannelProofs.v
theories/ChannelProps.v
theories/OrderModel.v
theories/OrderProofs.v
theories/OrderProps.v
theories/UcxModel.v
theories/UcxProofs.v
theories/UcxProps.v
theories/MonitorModel.v
theories/MonitorProofs.v
theories/MonitorProps.v
theories/LinearSpec.v
theories/LinearModel.v
theories/LinearProofs.v
theories/LinearProps.v
theories/RoutesModel.v
theories/RoutesSpec.v
theories/RoutesProofs.v
theories/RoutesProps.v
theories/MembersModel.v
theories/MembersSpec.v
theories/MembersProofs.v
theories/MembersProps.v
theories/FateModel.v
theories/FateProps.v
theories/MessageWireModel.v
theories/MessageWireProps.v
theories/UnwindModel.v
theories/UnwindSpec.v
theories/UnwindProofs.v
theories/LoadModel.v
theories/LoadProps.v
theories/YieldModel.v
theories/YieldSpec.v
theories/YieldProofs.v
theories/YieldProps.v
theories/YieldCancelProofs.v
theories/YieldCancelProps.v
theories/UcxConfModel.v
theories/UcxConfSpec.v
theories/UcxConfProofs.v
theories/UcxConfProps.v
theories/SerCleanProps.v
theories/NvModel.v
theories/NvProps.v
theories/AFileModel.v
theories/AFileSpec.v
theories/AFileProofs.v
theories/AFileProps.v
theories/AFileEventProps.v
theories/CopyConcModel.v
theories/CopyConcProofs.v
theories/CopyConcMain.v
theories/CopyConcFiles.v
theories/CopyConcProps.v
theories/DelayModel.v
theories/DelayProofs.v
theories/DelayOrder.v
theories/DelayOrderTime.v
theories/DelayEffects.v
theories/DelayProps.v
theories/CycleRefProps.v
theories/ReminderModel.v
theories/ReminderProps.v
theories/GenConcModel.v
theories/GenConcProps.v
theories/MlxModel.v
theories/MlxProps.v
theories/BackendModel.v
theories/BackendProps.v
theories/IdModel.v
theories/IdProps.v
