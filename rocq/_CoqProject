-Q theories Verif
theories/Base.v
theories/LTS.v
theories/WaitQueueModel.v
theories/WaitQueueSpec.v
theories/WaitQueueProofs.v
theories/WaitUntilModel.v
theories/WaitUntilProofs.v
theories/WakerRegModel.v
theories/WakerRegProofs.v
theories/TicksModel.v
theories/TicksProofs.v
theories/TimerListModel.v
theories/TimerListSpec.v
theories/TimerListProofs.v
theories/TimerQueueModel.v
theories/TimerQueueProofs.v
theories/MonoModel.v
theories/MonoProofs.v
theories/ChannelModel.v
theories/ChannelSpec.v
theories/ChannelInv.v
theories/ChannelOwn.v
theories/ChannelProofs.v
theories/ChannelTrace.v
theories/ChannelMore.v
theories/ChannelFinal.v
theories/ArbiterModel.v
theories/ArbiterSpec.v
theories/ArbiterProofs.v
theories/SignalModel.v
theories/SignalSpec.v
theories/SignalProofs.v
theories/ExecModel.v
theories/ExecSpec.v
theories/ExecProofs.v
theories/ExecProgress.v
theories/LockModel.v
theories/LockSpec.v
theories/LockProofs.v
theories/LockBackends.v
theories/LockBackendProofs.v
theories/LockSourceProofs.v
theories/LockFinal.v
theories/PropertiesCommon.v
theories/PropertiesTime.v
theories/PropertiesMono.v
theories/PropertiesChannel.v
theories/PropertiesArbiter.v
theories/PropertiesSignal.v
theories/PropertiesExec.v
theories/PropertiesLock.v
theories/AppModel.v
theories/AppSpec.v
theories/AppProofs.v
theories/AppAnalysis.v
theories/AppChecks.v
theories/AppFinal.v
theories/AppRun.v
theories/AppStart.v
theories/AppStartProofs.v
theories/AppAcceptSpec.v
theories/AppAccept.v
theories/AppAcceptChecks.v
theories/PropertiesApp.v
theories/PropertiesAccept.v
theories/AppRoute.v
theories/PropertiesRoute.v
theories/PropertiesEnd.v
theories/BusModel.v
theories/BusSpec.v
theories/BusProofs.v
theories/PropertiesBus.v
theories/ComposeModel.v
theories/ComposeProofs.v
theories/ComposeChannel.v
theories/ComposeArbiter.v
theories/ComposeSignal.v
theories/ComposeTimer.v
theories/ComposeSpec.v
theories/PropertiesCompose.v
theories/StartModel.v
theories/StartProofs.v
theories/PropertiesStart.v
theories/AppCfg.v
theories/PropertiesCfg.v
theories/UnstartedModel.v
theories/UnstartedProofs.v
theories/PropertiesUnstarted.v
theories/PollMask.v
theories/PollMaskProofs.v
theories/PropertiesPollMask.v
theories/PropertiesMonoRoute.v
theories/StackBound.v
theories/PropertiesStack.v
theories/PropertiesLocal.v
theories/Blocking.v
theories/PropertiesBlocking.v
theories/PropertiesTurns.v
theories/LayoutModel.v
theories/PropertiesLayout.v
theories/SystemModel.v
theories/SystemProofs.v
theories/SystemSpec.v
theories/SystemProgress.v
theories/SystemFinal.v
theories/SystemApp.v
theories/PropertiesSystem.v
theories/PropertiesTimerRest.v
theories/LockAccess.v
theories/SerialSpec.v
theories/LockAccessProofs.v
theories/PropertiesSerial.v
theories/AttrModel.v
theories/AttrSpec.v
theories/AttrProofs.v
theories/PropertiesAttr.v
theories/SigModel.v
theories/SigSpec.v
theories/SigProofs.v
theories/RefModel.v
theories/RefSpec.v
theories/RefProofs.v
theories/PropertiesRef.v
theories/ArgsModel.v
theories/ArgsSpec.v
theories/ArgsProofs.v
theories/PropertiesArgs.v
theories/GenModel.v
theories/GenSpec.v
theories/GenProofs.v
theories/PropertiesGen.v
theories/PropertiesGen2.v
theories/ChannelQuery.v
theories/PropertiesQuery.v
theories/MakeChannel.v
theories/PropertiesMake.v
theories/PropertiesCause.v
theories/PropertiesBypass.v
theories/PropertiesWake.v
theories/BuildModel.v
theories/PropertiesBuild.v
theories/PanicModel.v
theories/PropertiesPanic.v
theories/PropertiesLin.v
theories/SlicModel.v
theories/PropertiesSlic.v
theories/TimerInitModel.v
theories/TimerInitProofs.v
theories/PropertiesTimerInit.v
theories/SystickModel.v
theories/PropertiesSystick.v
