-Q theories Verif
theories/Base.v
theories/Errors.v
theories/Values.v
theories/OptDesc.v
theories/Positional.v
theories/Cmdline.v
theories/Parsers.v
theories/ConfigFile.v
theories/VarMap.v
theories/Winmain.v
theories/SplitUnix.v
theories/Format.v
theories/Convert.v
theories/Spec.v
theories/SpecLookup.v
theories/SpecCmdline.v
theories/BaseFacts.v
theories/LookupFacts.v
theories/Samples.v
theories/Witness.v
theories/SpecSplit.v
theories/SplitFacts.v
theories/SpecErrors.v
theories/ErrorFacts.v
theories/SpecStore.v
theories/StoreFacts.v
theories/SemFacts.v
theories/SpecConfig.v
theories/ConfigFacts.v
theories/PropLookup.v
theories/KeyFacts.v
theories/CmdlineFacts.v
theories/RunFacts.v
theories/ParseFacts.v
theories/StickyFacts.v
theories/CongruenceFacts.v
theories/SoundFacts.v
theories/PositionalFacts.v
theories/ValueFacts.v
theories/ReadFacts.v
theories/SafeFacts.v
theories/FoundFacts.v
theories/PrefixFacts.v
theories/PropCmdline.v
theories/PropCmdline2.v
theories/PropConfig.v
theories/PropStore.v
theories/PropSplit.v
theories/ErrorFacts2.v
theories/ThrowFacts.v
theories/PropErrors.v
theories/SpecConvert.v
theories/ConvertFacts.v
theories/PropConvert.v
theories/SpecFormat.v
theories/FormatFacts.v
theories/FormatFacts2.v
theories/PropFormat.v
theories/Wide.v
theories/Streams.v
theories/SpecStreams.v
theories/StreamFacts.v
theories/StreamWideFacts.v
theories/PropStreams.v
theories/Build.v
theories/SpecWide.v
theories/WideFacts.v
theories/WideFacts2.v
theories/WideFacts3.v
theories/PropWide.v
theories/SpecBuild.v
theories/BuildFacts.v
theories/PropBuild.v
theories/SpecReject.v
theories/RejectFacts.v
theories/PropReject.v
theories/SpecEnd.v
theories/EndFacts.v
theories/PropEnd.v
theories/Objects.v
theories/SpecObjects.v
theories/ObjectFacts.v
theories/PropObjects.v
theories/Conformance.v
theories/Conformance2.v
theories/MapUse.v
theories/SpecMapUse.v
theories/MapUseFacts.v
theories/PropMapUse.v
theories/SplitWideFacts.v
theories/PropSplitWide.v
theories/SpecGrammar.v
theories/GrammarFacts.v
theories/PropGrammar.v
theories/PropLocal.v
theories/SpecFrame.v
theories/FrameFacts.v
theories/PropFrame.v
theories/SpecConserve.v
theories/ConserveFacts.v
theories/GuessFacts.v
theories/PropConserve.v
theories/Masked.v
theories/OutStream.v
theories/SpecMask.v
theories/MaskFacts.v
theories/PropMask.v
theories/SpecStages.v
theories/StageFacts.v
theories/PropStages.v
theories/SpecStageStore.v
theories/StageStoreFacts.v
theories/PropStageStore.v
theories/SpecStyle.v
theories/StyleFacts.v
theories/PropStyle.v
theories/UserCode.v
theories/SpecUser.v
theories/UserFacts.v
theories/PropUser.v
theories/SpecOut.v
theories/OutFacts.v
theories/PropOut.v
theories/Reenter.v
theories/SpecReenter.v
theories/ReenterFacts.v
theories/PropReenter.v
theories/UserStore.v
theories/SpecUserStore.v
theories/UserStoreFacts.v
theories/PropUserStore.v
theories/SpecSame.v
theories/PropSame.v
theories/Lifetimes.v
theories/SpecLifetimes.v
theories/LifetimeFacts.v
theories/PropLifetimes.v
theories/SpecSpelling.v
theories/PropSpelling.v
theories/Threads.v
theories/SpecThreads.v
theories/ThreadFacts.v
theories/PropThreads.v
theories/SpecWays.v
theories/PropWays.v
theories/SpecTexts.v
theories/TextFacts.v
theories/PropTexts.v
theories/SpecProgram.v
theories/ProgramFacts.v
theories/PropProgram.v
theories/SpecParts.v
theories/PropParts.v
theories/SpecLater.v
theories/LaterFacts.v
theories/PropLater.v
theories/SpecHelpful.v
theories/HelpfulFacts.v
theories/PropHelpful.v
theories/PropFlag.v
theories/AgainFacts.v
theories/PropAgain.v
theories/Memory.v
theories/SpecMemory.v
theories/MemoryFacts.v
theories/PropMemory.v
theories/BuildMemory.v
theories/SpecBuildMemory.v
theories/BuildMemoryFacts.v
theories/PropBuildMemory.v
theories/Rerun.v
theories/SpecRerun.v
theories/RerunFacts.v
theories/PropRerun.v
theories/UserEnv.v
theories/SpecUserEnv.v
theories/UserEnvFacts.v
theories/PropUserEnv.v
theories/Release.v
theories/SpecRelease.v
theories/ReleaseFacts.v
theories/PropRelease.v
theories/Owners.v
theories/SpecOwners.v
theories/OwnersFacts.v
theories/PropOwners.v
theories/SpecCatch.v
theories/CatchFacts.v
theories/PropCatch.v
theories/SpecSay.v
theories/SayFacts.v
theories/PropSay.v
theories/Recipes.v
theories/SpecRecipes.v
theories/RecipeFacts.v
theories/PropRecipes.v
theories/Iterators.v
theories/SpecIterators.v
theories/IteratorFacts.v
theories/PropIterators.v
theories/NoDesc.v
theories/SpecNoDesc.v
theories/NoDescFacts.v
theories/PropNoDesc.v
theories/Adders.v
theories/SpecAdders.v
theories/AdderFacts.v
theories/PropAdders.v
theories/SpecSeveral.v
theories/SeveralFacts.v
theories/PropSeveral.v
