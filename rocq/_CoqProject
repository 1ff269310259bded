-Q theories Verif
theories/Base.v
theories/Grammar.v
theories/Items.v
theories/First.v
theories/Follow.v
theories/FollowSpec.v
theories/FollowProofs.v
theories/Lr0.v
theories/Lr0Spec.v
theories/Lr0Proofs.v
theories/Lr1.v
theories/Ast.v
theories/Lower.v
theories/Codegen.v
theories/Runtime.v
theories/Pattern.v
theories/Macro.v
theories/GSpec.v
theories/BaseProofs.v
theories/Wf.v
theories/FirstProofs.v
theories/ClosureProofs.v
theories/AutomatonProofs.v
theories/TableProofs.v
theories/SlrProofs.v
theories/Simulate.v
theories/LrSem.v
theories/Complete.v
theories/FirstClosed.v
theories/GenProofs.v
theories/GenShape.v
theories/RunProofs.v
theories/RunLive.v
theories/Canonical.v
theories/RunTerm.v
theories/RunLock.v
theories/RunComplete.v
theories/RunTrace.v
theories/Spec.v
theories/PatternProofs.v
theories/LowerProofs.v
theories/LowerPanics.v
theories/LowerTrees.v
theories/Lr1Spec.v
theories/Lr1Proofs.v
theories/MacroProofs.v
theories/Determinism.v
theories/Termination.v
theories/UserProofs.v
theories/USpec.v
theories/UserLr1.v
theories/UserDown.v
theories/Lookahead.v
theories/UserConflict.v
theories/GenPanics.v
theories/PropSpec.v
theories/GenSpec.v
theories/PropProofs.v
theories/RunPrefix.v
theories/UserPrefix.v
theories/PropRun.v
theories/Decide.v
theories/StageProofs.v
theories/ActionProofs.v
theories/Reorder.v
theories/UnitTests.v
theories/Grammars.v
theories/Properties.v
theories/PropertiesGen.v
theories/PropertiesCode.v
theories/Findings.v
theories/Dsl.v
theories/DslSpec.v
theories/DslProofs.v
theories/DslRules.v
theories/DslPanics.v
theories/DslWritable.v
theories/PropertiesDsl.v
theories/Shape.v
theories/Alike.v
theories/AlikeSpec.v
theories/LowerAlike.v
theories/AlikeProofs.v
theories/SameCode.v
theories/Merge.v
theories/RenameProofs.v
theories/PropertiesNames.v
theories/ParamSpec.v
theories/RunRel.v
theories/ParamProofs.v
theories/PropertiesParam.v
theories/RunLinear.v
theories/TimeProofs.v
theories/PropertiesTime.v
theories/Names.v
theories/NamesProofs.v
theories/PropertiesHygiene.v
theories/Wrap.v
theories/PropertiesWrap.v
theories/KnuthSpec.v
theories/KnuthProofs.v
theories/LocalProofs.v
theories/PropertiesKnuth.v
theories/Effects.v
theories/EffectsSpec.v
theories/EffectsProofs.v
theories/EffectsReplay.v
theories/PropertiesEffects.v
theories/ComputedSpec.v
theories/ComputedProofs.v
theories/PropertiesComputed.v
theories/Message.v
theories/MessageSpec.v
theories/MessageProofs.v
theories/PropertiesMessage.v
theories/EntrySpec.v
theories/EntryProofs.v
theories/PropertiesEntry.v
theories/LocalBy.v
theories/AddedProofs.v
theories/AddedRuns.v
theories/PropertiesLocal.v
theories/Rust.v
theories/Emit.v
theories/EmitSpec.v
theories/EmitModule.v
theories/EmitRun.v
theories/EmitLoop.v
theories/EmitProofs.v
theories/EmitBinds.v
theories/PropertiesEmit.v
theories/RustTypes.v
theories/RustTypesProofs.v
theories/EmitTypes.v
theories/Program.v
theories/TypedSpec.v
theories/EmitTyped.v
theories/EmitNeeds.v
theories/EmitCompile.v
theories/PropertiesTyped.v
theories/PropertiesCompile.v
theories/PropertiesProgram.v
theories/InterleaveSpec.v
theories/InterleaveProofs.v
theories/PropertiesInterleave.v
theories/MemorySpec.v
theories/MemoryProofs.v
theories/PropertiesMemory.v
theories/PropertiesErrors.v
theories/PropertiesRefactor.v
theories/PropertiesReplace.v
theories/LrSpec.v
theories/LrProofs.v
theories/PropertiesClasses.v
theories/CoverSpec.v
theories/CoverProofs.v
theories/PropertiesCover.v
theories/PropertiesFollow.v
theories/PropertiesLr0.v
theories/PropertiesSlr.v
theories/PropertiesSimulate.v
theories/Display.v
theories/DisplaySpec.v
theories/DisplayProofs.v
theories/DisplayViews.v
theories/DisplayRange.v
theories/PropertiesDisplay.v
theories/EndlessProofs.v
theories/EndlessRuns.v
theories/EndlessEffects.v
theories/PropertiesEndless.v
theories/PropertiesWaiting.v
theories/SizeProofs.v
theories/PropertiesSize.v
