Base
FramingModel
FramingProofs
FramingProps
CallerModel
CallerProofs
CallerProps
ResultModel
ResultProps
LockModel
LockProofs
LockProps
PoolModel
PoolProofs
PoolRegistry
PoolProps
WaitModel
WaitProps
Dict
ConfigModel
ConfigProofs
ConfigProps
IndexProps
RouterModel
RouterProps
MainModel
MainProofs
MainIdle
MainProps
RecoverModel
RecoverProps
SerModel
SerSpec
SerMachine
SerProofs
SerEnd
SerProps
CopyModel
CopyProofs
CopyProps
MessageModel
MessageProps
LruModel
LruProps
DispatchModel
DispatchProps
BatchModel
BatchProps
GenModel
GenProps
PortModel
PortProps
RetryModel
RetryProps
PyStr
AddrModel
AddrProps
SizeModel
SizeProps
StoreModel
StoreProps
StoreWait
StoreWaitProps
StoreTalk
StoreTalkProps
StoreWatchProps
PercentileModel
PercentileProps
MetricModel
MetricProps
ProfileModel
ProfileProps
CycleModel
CycleProps
DummyModel
DummyProps
GroupModel
GroupProps
ShmModel
ShmProps
NdModel
NdProps
RefModel
RefProps
LayoutModel
LayoutProps
MarkerModel
MarkerProps
TorchModel
TorchProps
StoreWireModel
StoreWireProofs
StoreWireProps
StoreSessModel
StoreSessProps
WorkerModel
WorkerProps
UvModel
UvProps
WaitForModel
WaitForProps
ErrorModel
ErrorProps
CollModel
CollProps
NcclModel
NcclProps
ChannelModel
ChannelProofs
ChannelProps
OrderModel
OrderProofs
OrderProps
UcxModel
UcxProofs
UcxProps
MonitorModel
MonitorProofs
MonitorProps
LinearSpec
LinearModel
LinearProofs
LinearProps
RoutesModel
RoutesSpec
RoutesProofs
RoutesProps
MembersModel
MembersSpec
MembersProofs
MembersProps
FateModel
FateProps
MessageWireModel
MessageWireProps
UnwindModel
UnwindSpec
UnwindProofs
LoadModel
LoadProps
YieldModel
YieldSpec
YieldProofs
YieldProps
YieldCancelProofs
YieldCancelProps
UcxConfModel
UcxConfSpec
UcxConfProofs
UcxConfProps
SerCleanProps
NvModel
NvProps
AFileModel
AFileSpec
AFileProofs
AFileProps
AFileEventProps
CopyConcModel
CopyConcProofs
CopyConcMain
CopyConcFiles
CopyConcProps
DelayModel
DelayProofs
DelayOrder
DelayOrderTime
DelayEffects
DelayProps
CycleRefProps
ReminderModel
ReminderProps
GenConcModel
GenConcProps
MlxModel
MlxProps
BackendModel
BackendProps
IdModel
IdProps
