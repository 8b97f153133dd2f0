-Q theories Verif
theories/Base.v
theories/RleVec.v
theories/Pool.v
theories/Vecc.v
theories/Bluff.v
theories/Bytecode.v
theories/Chunk.v
theories/SpecContainers.v
theories/ContainerHist.v
theories/ProofContainers.v
theories/ProofBytecode.v
theories/ProofContainers2.v
theories/PropContainers.v
theories/Float.v
theories/NumText.v
theories/Value.v
theories/ProofValue.v
theories/Ast.v
theories/Arith.v
theories/VmOps.v
theories/SpecArith.v
theories/ProofArith.v
theories/ProofArith2.v
theories/ProofArith3.v
theories/ProofArith4.v
theories/ProofArithEx.v
theories/PropArith.v
theories/Args.v
theories/Builtins.v
theories/SpecBuiltins.v
theories/ProofBuiltins.v
theories/ProofBuiltins2.v
theories/ProofBuiltins3.v
theories/ProofBuiltins4.v
theories/ProofBuiltinsEx.v
theories/PropBuiltins.v
theories/Compiler.v
theories/Vm.v
theories/ProofVm.v
theories/SpecVm.v
theories/ProofVm2.v
theories/ProofVm3.v
theories/ProofVm4.v
theories/ProofVars.v
theories/ProofCompiler.v
theories/ProofVm5.v
theories/ExProg.v
theories/ProofVmEx.v
theories/PropVm.v
theories/Items.v
theories/CodeRel.v
theories/CodeSize.v
theories/ProofCode.v
theories/ProofCode2.v
theories/ProofCode3.v
theories/ProofCode4.v
theories/ProofCode5.v
theories/ProofCode6.v
theories/ProofCode7.v
theories/Parse.v
theories/ExTests.v
theories/SpecParse.v
theories/ProofParse.v
theories/ProofParse2.v
theories/ProofParse3.v
theories/ProofParseEx.v
theories/PropParse.v
theories/Includes.v
theories/SpecIncludes.v
theories/ProofIncludes.v
theories/PropIncludes.v
theories/SpecRel.v
theories/ProofRel.v
theories/SpecReady.v
theories/ProofHeight.v
theories/ProofHeight2.v
theories/ProofHeight3.v
theories/ProofHeight4.v
theories/ProofReady.v
theories/ProofReady2.v
theories/ProofReady3.v
theories/ProofReadyEx.v
theories/PropReady.v
theories/ProofVars2.v
theories/PropVars.v
theories/SpecStatic.v
theories/SpecJump.v
theories/ProofStatic.v
theories/ProofStatic2.v
theories/ProofStaticEx.v
theories/ProofJump.v
theories/PropStatic.v
theories/Repl.v
theories/SpecRepl.v
theories/ProofRepl.v
theories/ProofReplEx.v
theories/PropRepl.v
theories/Lines.v
theories/SpecLines.v
theories/ProofLines.v
theories/PropLines.v
theories/Disasm.v
theories/SpecDisasm.v
theories/ProofDisasm.v
theories/ProofDisasm2.v
theories/ProofDisasm3.v
theories/ProofDisasmEx.v
theories/PropDisasm.v
theories/SpecEval.v
theories/ProofSim1.v
theories/ProofSim2.v
theories/ProofSim3.v
theories/ProofSim4.v
theories/ProofSim5.v
theories/ProofSim6.v
theories/ProofSim7.v
theories/ProofSim8.v
theories/ProofSim9.v
theories/ProofSim10.v
theories/ProofSim11.v
theories/ProofSim12.v
theories/ProofSim13.v
theories/ProofEval.v
theories/ProofEval2.v
theories/ProofEvalEx.v
theories/ProofWrap.v
theories/ProofWrap2.v
theories/PropEval.v
theories/SpecFlow.v
theories/ProofFlow.v
theories/ProofFlowEx.v
theories/PropFlow.v
theories/ProofParse4.v
theories/ProofParse5.v
theories/SpecExpr.v
theories/ProofExpr.v
theories/ProofExpr2.v
theories/ProofExpr3.v
theories/ProofExpr4.v
theories/ProofExpr5.v
theories/ProofExprEx.v
theories/PropExpr.v
theories/ProofStd.v
theories/ProofHeld.v
theories/SpecHeld.v
theories/ProofHeld2.v
theories/ProofHeld3.v
theories/ProofHeld4.v
theories/Std.v
theories/SpecStd.v
theories/ProofStdRel.v
theories/ProofStdUse.v
theories/SpecHeldRepl.v
theories/ProofHeld5.v
theories/ProofHeldEx.v
theories/PropHeld.v
theories/ProofStdEx.v
theories/PropStd.v
theories/Console.v
theories/SpecConsole.v
theories/ProofConsole.v
theories/ProofConsole2.v
theories/SpecText.v
theories/ProofText.v
theories/ProofConsole3.v
theories/ProofConsole4.v
theories/ProofConsole5.v
theories/ProofConsoleEx.v
theories/PropConsole.v
theories/SpecLib.v
theories/ProofLib.v
theories/ProofLib2.v
theories/ProofLib3.v
theories/ProofLib4.v
theories/ProofLib5.v
theories/ProofLibEx.v
theories/PropLib.v
theories/SpecProg.v
theories/ProofProg.v
theories/ProofProg2.v
theories/ProofProg3.v
theories/ProofProg4.v
theories/ProofProg5.v
theories/ProofProg6.v
theories/ProofProg7.v
theories/ProofProg8.v
theories/ProofProg9.v
theories/ProofProg10.v
theories/ProofProg11.v
theories/ProofProg12.v
theories/ProofProg13.v
theories/ProofProgEx.v
theories/PropProg.v
theories/SpecLayout.v
theories/ProofLayout.v
theories/ProofLayoutB.v
theories/ProofLayoutC.v
theories/ProofLayoutD.v
theories/ProofLayoutE.v
theories/ProofLayoutEx.v
theories/PropLayout.v
theories/Report.v
theories/Cli.v
theories/SpecReport.v
theories/ProofReport.v
theories/ProofReport2.v
theories/ProofReport3.v
theories/ProofCli.v
theories/ProofCli2.v
theories/ProofCliEx.v
theories/PropCli.v
theories/SpecPos.v
theories/ProofPos1.v
theories/ProofPos2.v
theories/ProofPos3.v
theories/ProofPos4.v
theories/ProofPos5.v
theories/ProofPos6.v
theories/ProofPos7.v
theories/ProofPos8.v
theories/ProofPos9.v
theories/ProofPos10.v
theories/ProofPos11.v
theories/ProofSpans.v
theories/ProofSpans2.v
theories/SpecDrawn.v
theories/ProofSpans3.v
theories/ProofDrawnEx.v
theories/PropDrawn.v
theories/ProofPosEx.v
theories/PropPos.v
theories/ProofTight.v
theories/SpecEq.v
theories/ProofEq.v
theories/PropTight.v
theories/Listing.v
theories/SpecListing.v
theories/ProofListing.v
theories/ProofListing2.v
theories/ProofListingEx.v
theories/PropListing.v
theories/SpecData.v
theories/ProofData.v
theories/SpecMain.v
theories/Main.v
theories/ProofMain.v
theories/ProofMainEx.v
theories/PropMain.v
theories/SpecCount.v
theories/ProofCount.v
theories/ProofCount2.v
theories/ProofCountEx.v
theories/PropCount.v
theories/SpecRound.v
theories/ProofRound.v
theories/ProofRound2.v
theories/ProofRoundEx.v
theories/PropRound.v
theories/Docs.v
theories/SpecDocs.v
theories/ProofDocs.v
theories/ProofDocs2.v
theories/ProofDocs3.v
theories/ProofDocsEx.v
theories/PropDocs.v
theories/Embed.v
theories/SpecEmbed.v
theories/ProofEmbed.v
theories/ProofEmbedEx.v
theories/ProofEmbed2.v
theories/PropEmbed.v
theories/ProofTidy.v
theories/ProofTidy2.v
theories/SpecNames.v
theories/ProofNames.v
theories/ProofNames2.v
theories/ProofNames3.v
theories/ProofNamesEx.v
theories/PropNames.v
theories/SpecTold.v
theories/ProofTidy3.v
theories/ProofToldEx.v
theories/SpecLimits.v
theories/ProofLimits.v
theories/ProofLimits2.v
theories/ProofLimitsEx.v
theories/PropLimits.v
theories/SpecRename.v
theories/ProofRename.v
theories/ProofRename2.v
theories/ProofRename3.v
theories/ProofRename4.v
theories/ProofRenameEx.v
theories/PropRename.v
theories/SpecOnly.v
theories/ProofOnly.v
theories/ProofOnly2.v
theories/ProofOnlyEx.v
theories/PropOnly.v
theories/SpecBuilds.v
theories/ProofBuilds.v
theories/ProofBuilds2.v
theories/ProofBuildsEx.v
theories/PropBuilds.v
theories/SpecMove.v
theories/ProofMove.v
theories/ProofMoveEx.v
theories/PropMove.v
