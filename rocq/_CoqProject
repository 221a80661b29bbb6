-Q theories Verif
theories/Base.v
theories/PathModel.v
theories/PathSpec.v
theories/PathProofs.v
theories/PathProofs2.v
theories/PathProofs3.v
theories/PathProps.v
theories/DataTypeModel.v
theories/DataTypeProps.v
theories/TreeModel.v
theories/TreeSpec.v
theories/TreeProofs.v
theories/TreeProofs2.v
theories/TreeProofs3.v
theories/TreeProofs4.v
theories/TreeProps.v
theories/HashModel.v
theories/HashSpec.v
theories/HashProofs.v
theories/HashProofs2.v
theories/HashProofs3.v
theories/HashProps.v
theories/TreeCheck.v
theories/HeapModel.v
theories/HeapSpec.v
theories/HeapProofs.v
theories/HeapProofs2.v
theories/HeapProofs3.v
theories/HeapProofs4.v
theories/HeapProofs5.v
theories/HeapProofs6.v
theories/HeapProofs7.v
theories/HeapProofs8.v
theories/HeapProofs9.v
theories/HeapProofs10.v
theories/HeapProofs11.v
theories/HeapProofs12.v
theories/HeapProofs13.v
theories/HeapProps.v
theories/IdentModel.v
theories/IdentSpec.v
theories/IdentProofs.v
theories/IdentProps.v
theories/NcEntryModel.v
theories/NcEntryProps.v
theories/AnalysisModel.v
theories/AnalysisProps.v
theories/DBEntryModel.v
theories/DBEntryProps.v
theories/CtxModel.v
theories/CtxProps.v
theories/MdsModel.v
theories/MdsProps.v
theories/UdaModel.v
theories/UdaProps.v
theories/ValModel.v
theories/ValSpec.v
theories/ValProofs.v
theories/ValProofs2.v
theories/ValProofs3.v
theories/ValProofs4.v
theories/ValProofs5.v
theories/ValProps.v
theories/ValCoord.v
theories/PrimModel.v
theories/PrimSpec.v
theories/PrimProps.v
theories/PrimProps2.v
theories/VmapModel.v
theories/VmapSpec.v
theories/VmapProofs.v
theories/VmapProofs2.v
theories/VmapProofs3.v
theories/VmapProofs4.v
theories/VmapProps.v
theories/VmapProps2.v
theories/VmapProps3.v
theories/ConvModel.v
theories/ConvSpec.v
theories/ConvProofs.v
theories/ConvProofs2.v
theories/ConvProofs3.v
theories/ConvProofs4.v
theories/ConvProofs5.v
theories/ConvCheck.v
theories/ConvProps.v
theories/ConvShare.v
theories/ConvShare2.v
theories/ConvInverse.v
theories/ConvProps2.v
theories/ConvProps3.v
theories/ConvProps4.v
theories/ConvExamples.v
theories/ConvProps5.v
theories/ConvProps6.v
theories/ConvProgress.v
theories/ConvProps7.v
theories/ConvProps8.v
theories/ConvExamples2.v
theories/StoreModel.v
theories/StoreSpec.v
theories/StoreProofs.v
theories/StoreProofs2.v
theories/StoreProofs3.v
theories/StoreProofs4.v
theories/StoreProofs5.v
theories/StoreProps.v
theories/StoreProps2.v
theories/LazyModel.v
theories/LazySpec.v
theories/LazyProofs.v
theories/LazyProofs2.v
theories/LazyProps.v
theories/ResampleModel.v
theories/ResampleSpec.v
theories/ResampleProofs.v
theories/ResampleProofs2.v
theories/ResampleProps.v
theories/NcMetaModel.v
theories/NcMetaSpec.v
theories/NcMetaProofs.v
theories/NcMetaProofs2.v
theories/NcMetaProofs3.v
theories/NcMetaProofs4.v
theories/NcMetaProps.v
theories/NcCoordSpec.v
theories/NcCoordProofs.v
theories/NcCoordProofs2.v
theories/NcCoordProps.v
theories/NcCoordFit.v
theories/NcCoordExample.v
theories/NcFileModel.v
theories/NcFileSpec.v
theories/NcFileProofs.v
theories/NcFileProofs2.v
theories/NcFileProofs3.v
theories/NcFileProofs4.v
theories/NcFileProofs5.v
theories/NcFileProofs6.v
theories/NcFileProofs7.v
theories/NcFileProofs8.v
theories/NcFileProofs9.v
theories/NcFileProps.v
theories/NcLazyModel.v
theories/NcLazySpec.v
theories/NcLazyProofs.v
theories/NcLazyProofs2.v
theories/NcLazyProps.v
theories/XarrayModel.v
theories/XarraySpec.v
theories/XarrayProofs.v
theories/XarrayProofs2.v
theories/XarrayProps.v
theories/PulseModel.v
theories/PulseProofs.v
theories/PulseProofs2.v
theories/PulseProps.v
theories/ProvModel.v
theories/TargetOps.v
theories/ProvProps.v
theories/EqModel.v
theories/EqSpec.v
theories/EqProofs.v
theories/EqProofs2.v
theories/EqProps.v
theories/ConvMaps.v
theories/EndSpec.v
theories/EndProofs.v
theories/EndProofs2.v
theories/EndProofs3.v
theories/EndModel.v
theories/EndProofs4.v
theories/EndCheck.v
theories/EndProps.v
theories/MetaModel.v
theories/MetaSpec.v
theories/MetaProofs.v
theories/MetaProofs2.v
theories/MetaProofs3.v
theories/MetaProofs4.v
theories/MetaProps.v
theories/GuardModel.v
theories/GuardProps.v
theories/SerModel.v
theories/SerSpec.v
theories/SerProofs.v
theories/SerProps.v
theories/SignSpec.v
theories/SignProofs.v
theories/SignProofs2.v
theories/SignProofs3.v
theories/SignProofs4.v
theories/SignNames.v
theories/SignNames2.v
theories/SignMaps.v
theories/SignProps.v
theories/SignExample.v
theories/NcConvModel.v
theories/NcConvSpec.v
theories/NcConvProofs.v
theories/NcConvProofs2.v
theories/NcConvProofs3.v
theories/NcConvProofs4.v
theories/NcConvProofs5.v
theories/NcConvProps.v
theories/NcConvEx.v
theories/VersionModel.v
theories/VersionSpec.v
theories/VersionProofs.v
theories/VersionProps.v
theories/VersionProps2.v
theories/VersionEnd.v
theories/VersionEx.v
theories/NcValidModel.v
theories/NcValidSpec.v
theories/NcValidProofs.v
theories/NcValidProofs2.v
theories/NcValidProps.v
theories/CliModel.v
theories/CliSpec.v
theories/CliProofs.v
theories/CliProofs2.v
theories/CliProofs3.v
theories/CliProps.v
theories/CliProps2.v
theories/SliceModel.v
theories/SliceSpec.v
theories/SliceProofs.v
theories/SliceProofs2.v
theories/SliceProofs3.v
theories/SliceProofs4.v
theories/SliceProofs5.v
theories/SliceProps.v
theories/SliceProps2.v
theories/ConvShare3.v
theories/NcLazyConvModel.v
theories/NcLazyConvSpec.v
theories/NcLazyConvProofs.v
theories/NcLazyConvProofs2.v
theories/NcLazyConvProps.v
theories/NcLazyConvProps2.v
theories/OpenModel.v
theories/OpenSpec.v
theories/OpenProofs.v
theories/OpenProps.v
theories/OpenProps2.v
theories/OpenProps3.v
theories/AliasModel.v
theories/AliasSpec.v
theories/AliasProofs.v
theories/AliasProofs2.v
theories/AliasProps.v
theories/AliasProps2.v
theories/PrintModel.v
theories/PrintSpec.v
theories/PrintProofs.v
theories/PrintProofs2.v
theories/PrintProps.v
theories/EagerModel.v
theories/EagerSpec.v
theories/EagerProofs.v
theories/EagerProofs2.v
theories/EagerProofs3.v
theories/EagerProofs4.v
theories/EagerProps.v
theories/EagerProps2.v
theories/MetaProps2.v
theories/OperModel.v
theories/OperProps.v
theories/ReportModel.v
theories/ReportProps.v
theories/LookupModel.v
theories/LookupProps.v
theories/NavModel.v
theories/NavProps.v
theories/TimerModel.v
theories/TimerProps.v
theories/LowModel.v
theories/LowProps.v
