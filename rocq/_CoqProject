-Q theories Verif
theories/Base.v
theories/Types.v
theories/Transcode.v
theories/Spec.v
theories/MemFacts.v
theories/Exec.v
theories/Main.v
theories/MainStruct.v
theories/MainVar.v
theories/MainSeq.v
theories/MainVec.v
theories/Gen.v
theories/Api.v
theories/ApiFacts.v
theories/Plan.v
theories/PlanConv.v
theories/PlanHoist.v
theories/PlanWf.v
theories/PlanLay.v
theories/PlanShape.v
theories/PlanKeep.v
theories/GenFacts.v
theories/Schema.v
theories/Round.v
theories/Ends.v
theories/PathEq.v
theories/Claims.v
theories/Space.v
theories/CoreFacts.v
theories/Handlers.v
theories/Layouts.v
theories/Conv.v
theories/PropCore.v
theories/PropConv.v
theories/PropPlan.v
theories/CompileFacts.v
theories/Check.v
theories/Demo.v
theories/Enum.v
theories/Safe.v
theories/Late.v
theories/Refuted.v
theories/PropChange.v
theories/PropFalse.v
theories/Framing.v
theories/FramingFacts.v
theories/Parse.v
theories/ParseFacts.v
theories/BinCompat.v
theories/BinCompatFacts.v
theories/PropSide.v
theories/Reflect.v
theories/ReflectFacts.v
theories/AnyFacts.v
theories/AnySplit.v
theories/AnyDemo.v
theories/PropReflect.v
theories/Cpp.v
theories/CppFacts.v
theories/CppClaims.v
theories/Host.v
theories/HostFacts.v
theories/PropHost.v
theories/Effects.v
theories/EffectsFacts.v
theories/PropEffects.v
theories/Copies.v
theories/CopiesFacts.v
theories/PropCopies.v
theories/Nominal.v
theories/NominalFacts.v
theories/NominalClaims.v
theories/PropNominal.v
theories/Other.v
theories/Serve.v
theories/ServeDemo.v
theories/Rests.v
theories/PropOther.v
theories/RoundRun.v
theories/Inflate.v
theories/Grow.v
theories/RoundUp.v
theories/RoundDemo.v
theories/PropRound.v
theories/Imports.v
theories/ImportsFacts.v
theories/PropImports.v
theories/Header.v
theories/Deaf.v
theories/HeaderFacts.v
theories/HeaderDemo.v
theories/PropHeader.v
theories/Grammar.v
theories/GrammarSpec.v
theories/GrammarFacts.v
theories/GrammarDemo.v
theories/PropGrammar.v
theories/GrammarSound.v
theories/Elab.v
theories/ElabSpec.v
theories/ElabFacts.v
theories/ElabClaims.v
theories/PortalFacts.v
theories/ElabDemo.v
theories/PropElab.v
theories/Cases.v
theories/Cases2.v
theories/Cases3.v
theories/Extending.v
theories/ExtendSpec.v
theories/ExtendFacts.v
theories/ExtendDemo.v
theories/PropExtend.v
theories/Classes.v
theories/ClassSpec.v
theories/ClassFacts.v
theories/ClassDemo.v
theories/PropClass.v
theories/IR.v
theories/IRFacts.v
theories/IRRun.v
theories/Sizing.v
theories/SizingFacts.v
theories/SizingRun.v
theories/ApiOps.v
theories/OpsFacts.v
theories/OpsDemo.v
theories/PropOps.v
theories/CopiesMore.v
theories/Flat.v
theories/FlatFacts.v
theories/FlatRun.v
theories/FlatDemo.v
theories/PropFlat.v
theories/AnyField.v
theories/AnyFieldSpec.v
theories/AnyFieldFacts.v
theories/AnyFieldDemo.v
theories/PropAny.v
theories/Share.v
theories/ShareFacts.v
theories/ShareDemo.v
theories/PropShare.v
theories/AloneFacts.v
theories/AloneDemo.v
theories/PropAlone.v
