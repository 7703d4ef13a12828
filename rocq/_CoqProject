-Q theories Verif
theories/ArenaFacts.v
theories/Base.v
theories/BaseFacts.v
theories/BuilderFacts.v
theories/BuilderModel.v
theories/BuilderProps.v
theories/ChangeCases.v
theories/ChangeComplete.v
theories/ChangeEnds.v
theories/ChangeFacts.v
theories/ChangeGuard.v
theories/ChangeModel.v
theories/ChangeReuse.v
theories/ChangeRun.v
theories/ChangeSession.v
theories/ChangeSpec.v
theories/ChangeTyped.v
theories/Conformance.v
theories/ConserveFacts.v
theories/DashAll.v
theories/DashFacts.v
theories/DashModel.v
theories/DashProps.v
theories/DashSpec.v
theories/DashTotal.v
theories/DeriveFacts.v
theories/DeriveModel.v
theories/DeriveProps.v
theories/DeriveRunFacts.v
theories/DeriveSpec.v
theories/DropFacts.v
theories/DropModel.v
theories/DropSpec.v
theories/EventFacts.v
theories/ExtentFacts.v
theories/ExtentModel.v
theories/ExtentProps.v
theories/ExtentSpec.v
theories/FinishFacts.v
theories/FlameExtra.v
theories/FlameFacts.v
theories/FlameModel.v
theories/GlobalFacts.v
theories/GlobalModel.v
theories/GlobalSpec.v
theories/GrowthFacts.v
theories/GrowthSpec.v
theories/GuardFacts.v
theories/HMap.v
theories/HeapFacts.v
theories/HeapProps.v
theories/IdentityFacts.v
theories/IdentityModel.v
theories/IdentitySpec.v
theories/ImplFacts.v
theories/ImplModel.v
theories/ImplSpec.v
theories/Instances.v
theories/InterruptFacts.v
theories/InterruptModel.v
theories/InterruptSpec.v
theories/KeyFacts.v
theories/KeyModel.v
theories/LayoutFacts.v
theories/LayoutModel.v
theories/LayoutSpec.v
theories/LockFacts.v
theories/LockModel.v
theories/LockSpec.v
theories/MergeFacts.v
theories/MixApart.v
theories/MixApartSpec.v
theories/MixCases.v
theories/MixEnds.v
theories/MixFacts.v
theories/MixGuard.v
theories/MixLooks.v
theories/MixModel.v
theories/MixPoolEnds.v
theories/MixPoolFacts.v
theories/MixPoolModel.v
theories/MixPoolShown.v
theories/MixPoolSpec.v
theories/MixRun.v
theories/MixSession.v
theories/MixSpec.v
theories/MixTyped.v
theories/MixTypedSpec.v
theories/NameFacts.v
theories/NameSpec.v
theories/NestExample.v
theories/NestFacts.v
theories/NestModel.v
theories/NestSpec.v
theories/OwnedFacts.v
theories/ParseFacts.v
theories/PoolFacts.v
theories/PoolModel.v
theories/PoolProps.v
theories/PoolSpec.v
theories/PropertiesBuilder.v
theories/PropertiesChange.v
theories/PropertiesDash.v
theories/PropertiesDerive.v
theories/PropertiesDrop.v
theories/PropertiesExtent.v
theories/PropertiesFlame.v
theories/PropertiesGlobal.v
theories/PropertiesGrowth.v
theories/PropertiesHeap.v
theories/PropertiesIdentity.v
theories/PropertiesImpl.v
theories/PropertiesInterrupt.v
theories/PropertiesLayout.v
theories/PropertiesLocks.v
theories/PropertiesMix.v
theories/PropertiesMixApart.v
theories/PropertiesMixPool.v
theories/PropertiesMixTyped.v
theories/PropertiesNames.v
theories/PropertiesNest.v
theories/PropertiesPool.v
theories/PropertiesReport.v
theories/PropertiesSession.v
theories/PropertiesSizeMix.v
theories/PropertiesSnapshot.v
theories/PropertiesTotal.v
theories/PropertiesUnwind.v
theories/PropertiesWait.v
theories/PropertiesWhole.v
theories/PropertiesWholeMix.v
theories/PropertiesWrap.v
theories/ReportFacts.v
theories/ReportSpec.v
theories/RunFacts.v
theories/SessionFacts.v
theories/SessionSpec.v
theories/SizeMixCases.v
theories/SizeMixFacts.v
theories/SizeMixGuard.v
theories/SizeMixModel.v
theories/SizeMixSpec.v
theories/SizeOfModel.v
theories/SnapshotAlone.v
theories/SnapshotFacts.v
theories/SnapshotModel.v
theories/SnapshotProps.v
theories/SnapshotRun.v
theories/SnapshotSpec.v
theories/SolidFacts.v
theories/Spec.v
theories/StoreFacts.v
theories/StoreProps.v
theories/TotalFacts.v
theories/TotalSpec.v
theories/TraceFacts.v
theories/UnwindFacts.v
theories/UnwindModel.v
theories/UnwindProfile.v
theories/UnwindProps.v
theories/UnwindSpec.v
theories/VisitorModel.v
theories/WaitCases.v
theories/WaitFacts.v
theories/WaitModel.v
theories/WaitProps.v
theories/WaitSpec.v
theories/WholeFacts.v
theories/WholeMixFacts.v
theories/WholeMixModel.v
theories/WholeMixSpec.v
theories/WholeModel.v
theories/WrapFinish.v
theories/WrapModes.v
theories/WrapPanic.v
theories/WrapProps.v
theories/WrapRun.v
theories/WrapSpec.v
theories/WriteFacts.v
