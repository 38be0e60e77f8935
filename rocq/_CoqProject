-Q theories Verif
theories/Prelude.v
theories/Factory.v
theories/Core.v
theories/CoreInv.v
theories/CoreStep.v
theories/CoreRun.v
theories/CoreEff.v
theories/CoreSpec.v
theories/CoreProps.v
theories/CoreLive.v
theories/CoreSolo.v
theories/CoreTrace.v
theories/CoreOps.v
theories/CoreRace.v
theories/Policies.v
theories/SetFactory.v
theories/HashedFactory.v
theories/SetFactoryProofs.v
theories/HashedFactoryProofs.v
theories/FactoryProps.v
theories/Compare.v
theories/Instances.v
theories/PropCore.v
theories/PropOps.v
theories/PropFactory.v
theories/Serialize.v
theories/SerializeSpec.v
theories/SerializeProofs.v
theories/SerRec.v
theories/SerRecProofs.v
theories/PropSerialize.v
theories/Lifetime.v
theories/LifetimeProofs.v
theories/LifetimeInsert.v
theories/LifetimeRun.v
theories/PropLifetime.v
theories/Recursive.v
theories/RecursiveSpec.v
theories/RecursiveProofs.v
theories/PropRecursive.v
theories/Concurrent.v
theories/ConcurrentInv.v
theories/ConcurrentStep.v
theories/ConcurrentSpec.v
theories/ConcurrentProofs.v
theories/ConcurrentGc.v
theories/ConcurrentLive.v
theories/ConcurrentMore.v
theories/ConcurrentSolo.v
theories/ConcurrentPolicies.v
theories/PropConcurrent.v
theories/Mutex.v
theories/MutexSpec.v
theories/PropMutex.v
theories/Shutdown.v
theories/ShutdownSpec.v
theories/PropShutdown.v
theories/Statics.v
theories/StaticsSpec.v
theories/StaticsProofs.v
theories/PropStatics.v
theories/StaticsRace.v
theories/PropRace.v
theories/Modules.v
theories/ModulesSpec.v
theories/PropModules.v
theories/Config.v
theories/PropConfig.v
theories/Forward.v
theories/ForwardProofs.v
theories/PropForward.v
theories/Operators.v
theories/OperatorsProofs.v
theories/PropOperators.v
theories/Placeholder.v
theories/PlaceholderProofs.v
theories/PropPlaceholder.v
theories/Tracked.v
theories/PropTracked.v
theories/Nested.v
theories/PropNested.v
theories/Hb.v
theories/PropHb.v
theories/Chb.v
theories/PropChb.v
theories/ListFactory.v
theories/PropList.v
theories/CoreHb.v
theories/CoreHbWf.v
theories/CoreHbInv.v
theories/CoreHbStep.v
theories/CoreHbExec.v
theories/CoreHbRun.v
theories/CoreHbLife.v
theories/PropCoreHb.v
theories/CoreHbGraph.v
theories/CoreHbGraphRun.v
theories/PropCoreGraph.v
theories/PropInner.v
theories/PropStruct.v
theories/ConHb.v
theories/ConHbInv.v
theories/ConHbStep.v
theories/ConHbHist.v
theories/ConHbExec.v
theories/ConHbRun.v
theories/ConHbLife.v
theories/PropConHb.v
theories/ConHbGraph.v
theories/ConHbGraphRun.v
theories/PropConGraph.v
theories/Client.v
theories/PropClient.v
theories/Vectors.v
theories/Composite.v
theories/CompositeProofs.v
theories/PropComposite.v
theories/Html.v
theories/PropHtml.v
theories/HtmlProg.v
theories/HtmlProofs.v
theories/PropHtmlProg.v
theories/Team.v
theories/PropTeam.v
theories/Parallel.v
theories/ParallelProofs.v
theories/PropParallel.v
theories/PropKept.v
theories/KeyValue.v
theories/KeyValueProofs.v
theories/PropKeyValue.v
theories/PropConHeld.v
theories/ConClient.v
theories/PropConClient.v
theories/ConTeam.v
theories/PropConTeam.v
theories/PropConParallel.v
theories/Basic.v
theories/PropBasic.v
theories/Verbose.v
theories/VerboseProofs.v
theories/PropVerbose.v
theories/SerText.v
theories/PropSerText.v
theories/Perf.v
theories/PropPerf.v
theories/Alloc.v
theories/PropAlloc.v
theories/PropStored.v
theories/PropConStored.v
