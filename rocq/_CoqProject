-Q theories Verif

theories/Structure.v
theories/ParserCore.v
theories/ParserInstr.v
theories/ParserModule.v
theories/Validator.v
theories/ValidatorModule.v
theories/Cli.v
theories/SpecLeb.v
theories/SpecUtf8.v
theories/SpecFormat.v
theories/SpecParser.v
theories/LebProof.v
theories/Utf8Proof.v
theories/ParserMeta.v
theories/CoreClaims.v
theories/Props_Core.v
theories/TypesProof.v
theories/InstrProof.v
theories/ModuleProof.v
theories/SectionsProof.v
theories/SpecCode.v
theories/CodeProof.v
theories/DialectProof.v
theories/SpecEncoder.v
theories/EncodeProof.v
theories/ElementSpec.v
theories/SpecReserved.v
theories/ModuleClaims.v
theories/ModuleClaims2.v
theories/Props_Module.v
theories/SpecTyping.v
theories/SpecModule.v
theories/SpecRefs.v
theories/SpecEdit.v
theories/SpecVerdict.v
theories/TypingProof.v
theories/ModuleValidProof.v
theories/SafeProof.v
theories/DialectValidProof.v
theories/ValidityClaims.v
theories/ValidityWitnesses.v
theories/Props_Validation.v
theories/SpecCli.v
theories/CliProof.v
theories/Props_Cli.v
theories/TestVectors.v
theories/SpecStream.v
theories/OnePass.v
theories/Props_Stream.v
theories/ValidatorHost.v
theories/ValidatorAlloc.v
theories/HostProof.v
theories/Props_Host.v
theories/SpecExec.v
theories/ExecProof.v
theories/SpecDeviations.v
theories/InitProof.v
theories/InstProof.v
theories/SizeProof.v
theories/CanonProof.v
theories/UniqueProof.v
theories/Props_Canon.v
theories/SpecElse.v
theories/ElseProof.v
theories/Props_Else.v
theories/Grammar.v
theories/SpecGrammar.v
theories/GrammarProof.v
theories/Props_Grammar.v
theories/GrammarVectors.v
theories/DeviationProof.v
theories/Props_Deviations.v
theories/ExecDemo.v
theories/Props_Exec.v
theories/SpecSkeleton.v
theories/SkeletonProof.v
theories/SpecLink.v
theories/LinkProof.v
theories/ReorderProof.v
theories/Props_Invariance.v
theories/Display.v
theories/SpecDisplay.v
theories/DisplayProof.v
theories/SpecErrors.v
theories/ErrorsProof.v
theories/Props_Display.v
theories/ParserIter.v
theories/IterElements.v
theories/SpecIter.v
theories/IterProof.v
theories/IterClaims.v
theories/Props_Iter.v
theories/DebugText.v
theories/SpecLine.v
theories/DebugLine.v
theories/SpecFloat.v
theories/SpecDebug.v
theories/DebugLayout.v
theories/DebugNames.v
theories/DebugProof.v
theories/DebugLineProof.v
theories/DebugClaims.v
theories/Props_Debug.v
theories/Props_Line.v
theories/SpecBeginning.v
theories/BeginningProof.v
theories/Props_Beginning.v
theories/SpecPrincipal.v
theories/PrincipalProof.v
theories/Props_Principal.v
theories/SpecReplace.v
theories/ReplaceProof.v
theories/Props_Replace.v
theories/Equality.v
theories/SpecEq.v
theories/EqualityProof.v
theories/Props_Eq.v
theories/SpecPrompt.v
theories/PromptProof.v
theories/Props_Prompt.v
theories/ParserAlloc.v
theories/SpecAlloc.v
theories/AllocProof.v
theories/Props_Alloc.v
theories/SpecBlame.v
theories/BlameProof.v
theories/Props_Blame.v
theories/NestProof.v
theories/ProgramHost.v
theories/SpecStack.v
theories/StackProof.v
theories/SpecStorage.v
theories/StorageProof.v
theories/StorageFileProof.v
theories/StorageExactProof.v
theories/ProgramProof.v
theories/Props_Program.v
theories/DeepProof.v
theories/Props_Stack.v
theories/Props_Storage.v
theories/SpecLater.v
theories/LaterProof.v
theories/LaterClaims.v
theories/Props_Later.v
theories/SpecLocal.v
theories/LocalProof.v
theories/Props_Local.v
theories/ValidatorState.v
theories/StateProof.v
theories/SpecSession.v
theories/SessionProof.v
theories/Props_Session.v
theories/ValidatorCost.v
theories/SpecCost.v
theories/CostProof.v
theories/CostFileProof.v
theories/Props_Cost.v
theories/ParserCost.v
theories/TimeProof.v
theories/TimeIterProof.v
theories/TimeLeastProof.v
theories/Props_Time.v
theories/SpecLaterValid.v
theories/LaterTypingProof.v
theories/LaterValidProof.v
theories/Props_LaterValid.v
theories/SpecFormatList.v
theories/FormatListProof.v
theories/FormatListClaims.v
theories/Props_FormatList.v
theories/SpecPieces.v
theories/PiecesProof.v
theories/Props_Pieces.v
theories/SpecRequests.v
theories/RequestsProof.v
theories/Props_Requests.v
theories/SpecPrintSize.v
theories/PrintSizeProof.v
theories/PrintLengthProof.v
theories/Props_PrintSize.v
theories/ParserFaulty.v
theories/FaultyElements.v
theories/SpecFaulty.v
theories/FaultyProof.v
theories/FaultyClaims.v
theories/FaultyFuel.v
theories/Props_Faulty.v
theories/SpecAppend.v
theories/AppendProof.v
theories/Props_Append.v
theories/LengthsProof.v
theories/IntEndProof.v
theories/SpecStatic.v
theories/StaticProof.v
theories/Props_Static.v
theories/SpecReading.v
theories/ReadingProof.v
theories/LeanProof.v
theories/Props_Reading.v
theories/SpecSteps.v
theories/StepsProof.v
theories/Props_Steps.v
theories/SpecInline.v
theories/InlineProof.v
theories/InlineExecProof.v
theories/Props_Inline.v
theories/SpecSame.v
theories/SameProof.v
theories/Props_Same.v
theories/SpecVars.v
theories/VarsProof.v
theories/Props_Vars.v
theories/SpecDissolve.v
theories/DissolveProof.v
theories/Props_Dissolve.v
theories/LoopProof.v
theories/Props_Loop.v
theories/SpecSimpler.v
theories/SimplerProof.v
theories/Props_Simpler.v
