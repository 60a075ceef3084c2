-Q theories Verif

theories/Base.v
theories/Lexer.v
theories/LexerBuf.v
theories/IR.v
theories/Builder.v
theories/Expr.v
theories/Stmt.v
theories/Decl.v
theories/SpecLex.v
theories/LexerFacts.v
theories/PropsLex.v
theories/Wp.v
theories/Totality.v
theories/TotalityStmt.v
theories/FuelMono.v
theories/PropsTotal.v
theories/SpecRt.v
theories/Runtime.v
theories/RuntimeFacts.v
theories/PrintfFacts.v
theories/PropsRt.v
theories/Driver.v
theories/SpecDriver.v
theories/DriverFacts.v
theories/DriverModes.v
theories/DriverSummary.v
theories/DriverOk.v
theories/PropsDriver.v
theories/PropsDriverEx.v
theories/Cmdline.v
theories/SpecCmd.v
theories/CmdFacts.v
theories/PropsCmd.v
theories/Ld.v
theories/SpecLd.v
theories/LdFacts.v
theories/LdSrc.v
theories/PropsLd.v
theories/Syntax.v
theories/Pure.v
theories/ParseGen.v
theories/Pwp.v
theories/SpecIR.v
theories/InvIR.v
theories/Msteps.v
theories/InvDecl.v
theories/PropsIR.v
theories/Names.v
theories/InvNames.v
theories/Built.v
theories/SpecTree.v
theories/InvTerm.v
theories/PropsBlocks.v
theories/SpecStatic.v
theories/Static.v
theories/SpecText.v
theories/SpecAccept.v
theories/Joins.v
theories/Render.v
theories/RenderStmt.v
theories/RenderDecl.v
theories/RenderWf.v
theories/SpecOcc.v
theories/OccFacts.v
theories/TextTac.v
theories/PropsText.v
theories/InvSym.v
theories/PropsSym.v
theories/SpecSem.v
theories/IRSem.v
theories/SemFacts.v
theories/SpecLink.v
theories/SimBase.v
theories/SimExpr.v
theories/SimStmt.v
theories/SimAuto.v
theories/SimBody.v
theories/SimFun.v
theories/IRDet.v
theories/SemMono.v
theories/SimAny.v
theories/SemEx.v
theories/PropsExpr.v
theories/SpecRun.v
theories/RunFacts.v
theories/MemFacts.v
theories/PropsStmt.v
theories/Strings.v
theories/PropsGlobal.v
theories/LoopBound.v
theories/Process.v
theories/PropsProc.v
theories/PropsEnd.v
theories/SpecValid.v
theories/InvType.v
theories/InvPhi.v
theories/InvCalls.v
theories/PropsValid.v
theories/SpecSure.v
theories/InvDom.v
theories/InvDomS.v
theories/InvDomP.v
theories/InvInit.v
theories/PropsModule.v
theories/ParseText.v
theories/ParseTextS.v
theories/PropsAccept.v
theories/Files.v
theories/SpecFiles.v
theories/SemShift.v
theories/SimRen.v
theories/SimFiles.v
theories/PropsFiles.v
theories/SpecTool.v
theories/DriverLink.v
theories/PropsTool.v
theories/PropsCalls.v
theories/SpecStages.v
theories/DriverStages.v
theories/PropsStages.v
theories/Cells.v
theories/PropsExamples.v
theories/PropsDigits.v
theories/Syscall.v
theories/PropsSyscall.v
theories/SpecMsg.v
theories/StaticMsg.v
theories/MsgFacts.v
theories/PropsMsg.v
theories/Exec.v
theories/Suite.v
theories/SelfTest.v
theories/SpecDiag.v
theories/DiagFacts.v
theories/Final.v
theories/FinalP.v
theories/FinalS.v
theories/PropsDiag.v
theories/DriverOut.v
theories/SpecOut.v
theories/DriverOutFacts.v
theories/OutFacts.v
theories/OutNarr.v
theories/OutErr.v
theories/PropsOut.v
theories/SpecAlpha.v
theories/AlphaFacts.v
theories/AlphaSem.v
theories/PropsAlpha.v
theories/SpecSize.v
theories/SizeFacts.v
theories/SizeText.v
theories/PropsSize.v
theories/SpecOrder.v
theories/OrderFacts.v
theories/PropsOrder.v
theories/SpecUtf.v
theories/PropsUtf.v
theories/PropsGrow.v
theories/SpecParen.v
theories/ParenFacts.v
theories/PropsParen.v
theories/SpecBrace.v
theories/BraceFacts.v
theories/PropsBrace.v
theories/SpecLaws.v
theories/LawFacts.v
theories/PropsLaws.v
theories/SpecOwn.v
theories/OwnFacts.v
theories/PropsOwn.v
theories/SpecCalm.v
theories/CalmFacts.v
theories/PropsCalm.v
