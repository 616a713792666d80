-Q theories Verif
theories/Base.v
theories/BitLemmas.v
theories/HashmapModel.v
theories/HashmapSpec.v
theories/HashmapProofs.v
theories/PropertiesHashmap.v
theories/ArenaModel.v
theories/ArenaSpec.v
theories/ArenaProofs.v
theories/PropertiesArena.v
theories/UnicodeTables.v
theories/UnicodeModel.v
theories/UnicodeSpec.v
theories/UnicodeProofs.v
theories/PropertiesUnicode.v
theories/IntSpec.v
theories/IntModel.v
theories/IntLemmas.v
theories/IntTyped.v
theories/IntProofs.v
theories/IntFold.v
theories/IntElab.v
theories/IntMain.v
theories/PropertiesInt.v
theories/X86.v
theories/CgModel.v
theories/CgLemmas.v
theories/CgSeq.v
theories/CgSeq2.v
theories/CgSeq3.v
theories/CgInv.v
theories/CgTree.v
theories/CgGen.v
theories/CgSpec.v
theories/CgMain.v
theories/CgTotal.v
theories/CgConst.v
theories/PropertiesCg.v
theories/LexSpec.v
theories/LexModel.v
theories/LexLines.v
theories/LexSafe.v
theories/LexProofs.v
theories/LexTok.v
theories/NumSpec.v
theories/NumModel.v
theories/NumProofs.v
theories/PropertiesLex.v
theories/PpSpec.v
theories/PpModel.v
theories/PpProofs.v
theories/PropertiesPp.v
theories/MacSpec.v
theories/MacModel.v
theories/MacPasteModel.v
theories/MacProofs.v
theories/MacTerm.v
theories/MacObj.v
theories/MacPaste.v
theories/MacSubst.v
theories/MacMain.v
theories/PropertiesMac.v
theories/MacStr.v
theories/StrSpec.v
theories/StrModel.v
theories/StrProofs.v
theories/PropertiesStr.v
theories/FrameSpec.v
theories/FrameModel.v
theories/FrameProofs.v
theories/FrameVars.v
theories/PropertiesFrame.v
theories/LayoutSpec.v
theories/LayoutModel.v
theories/LayoutProofs.v
theories/PropertiesLayout.v
theories/SwitchSpec.v
theories/SwitchModel.v
theories/SwitchProofs.v
theories/SwitchCode.v
theories/PropertiesSwitch.v
theories/BfSpec.v
theories/BfModel.v
theories/BfProofs.v
theories/PropertiesBf.v
theories/InitSpec.v
theories/InitModel.v
theories/InitBytes.v
theories/InitProofs.v
theories/InitEmit.v
theories/PropertiesInit.v
theories/EnumSpec.v
theories/EnumModel.v
theories/EnumProofs.v
theories/PropertiesEnum.v
theories/ScopeSpec.v
theories/ScopeModel.v
theories/ScopeProofs.v
theories/LiveSpec.v
theories/LiveModel.v
theories/LiveProofs.v
theories/PropertiesScope.v
theories/CompatSpec.v
theories/CompatModel.v
theories/CompatRep.v
theories/CompatProofs.v
theories/PropertiesCompat.v
theories/Sse.v
theories/MemSpec.v
theories/MemModel.v
theories/MemProofs.v
theories/PropertiesMem.v
theories/CallSpec.v
theories/CallModel.v
theories/CallProofs.v
theories/CallClass.v
theories/CallPlan.v
theories/CallRun.v
theories/CallEnd.v
theories/PropertiesCall.v
theories/RetModel.v
theories/RetProofs.v
theories/PropertiesRet.v
theories/VaModel.v
theories/VaSpec.v
theories/VaProofs.v
theories/VaStep.v
theories/VaEnd.v
theories/VaMain.v
theories/VaSave.v
theories/VaFinal.v
theories/PropertiesVa.v
theories/DeferSpec.v
theories/DeferModel.v
theories/DeferProofs.v
theories/DeferMain.v
theories/DeferFinal.v
theories/PropertiesDefer.v
theories/DeclSpec.v
theories/DeclModel.v
theories/DeclProofs.v
theories/PropertiesDecl.v
theories/PathSpec.v
theories/PathModel.v
theories/PathProofs.v
theories/PathLookup.v
theories/MakeSpec.v
theories/MakeModel.v
theories/MakeProofs.v
theories/PropertiesPath.v
theories/AtomSpec.v
theories/AtomModel.v
theories/AtomProofs.v
theories/AtomExch.v
theories/PropertiesAtom.v
theories/FcmpSpec.v
theories/FcmpModel.v
theories/FcmpProofs.v
theories/PropertiesFcmp.v
theories/FcvtSpec.v
theories/FcvtModel.v
theories/FcvtMath.v
theories/FcvtProofs.v
theories/PropertiesFcvt.v
theories/CgHot.v
theories/StmtSpec.v
theories/StmtModel.v
theories/StmtPlace.v
theories/StmtInterp.v
theories/StmtEff.v
theories/StmtVoid.v
theories/StmtProofs.v
theories/StmtMain.v
theories/PropertiesStmt.v
theories/PifSpec.v
theories/PifModel.v
theories/PifProofs.v
theories/PropertiesPif.v
theories/DerefSpec.v
theories/DerefModel.v
theories/DerefProofs.v
theories/PropertiesDeref.v
theories/CgPiece.v
theories/ValSpec.v
theories/ValModel.v
theories/ValProofs.v
theories/ValMain.v
theories/PropertiesVal.v
theories/BfOpSpec.v
theories/BfOpModel.v
theories/BfOpVal.v
theories/BfOpProofs.v
theories/BfOpMain.v
theories/PropertiesBfOp.v
theories/ExprSpec.v
theories/ExprModel.v
theories/ExprEqs.v
theories/ExprTotal.v
theories/ExprText.v
theories/ExprSpecs.v
theories/ExprComplete.v
theories/ExprDecls.v
theories/ExprSound.v
theories/ExprProofs.v
theories/PropertiesExpr.v
theories/BrcSpec.v
theories/BrcModel.v
theories/BrcTree.v
theories/BrcParse.v
theories/BrcCount.v
theories/BrcEnd.v
theories/BrcCases.v
theories/BrcProofs.v
theories/PropertiesBrc.v
theories/TypSpec.v
theories/TypModel.v
theories/TypCases.v
theories/TypProofs.v
theories/TypMore.v
theories/PropertiesTyp.v
theories/LinkSpec.v
theories/LinkModel.v
theories/LinkCases.v
theories/LinkProofs.v
theories/LinkMain.v
theories/LinkMore.v
theories/LinkOnce.v
theories/LinkUses.v
theories/LinkCheck.v
theories/PropertiesLink.v
theories/JmpSpec.v
theories/JmpModel.v
theories/JmpProofs.v
theories/JmpMain.v
theories/JmpSem.v
theories/JmpGoto.v
theories/JmpBody.v
theories/PropertiesJmp.v
theories/AsmSpec.v
theories/AsmModel.v
theories/AsmProofs.v
theories/AsmInv.v
theories/AsmPhase.v
theories/AsmAlloc.v
theories/AsmMain.v
theories/AsmCodeSpec.v
theories/AsmCodeModel.v
theories/AsmMach.v
theories/AsmPro.v
theories/AsmEpi.v
theories/AsmRun.v
theories/PropertiesAsm.v
theories/PrintModel.v
theories/PrintSpec.v
theories/Relex.v
theories/PrintProofs.v
theories/PropertiesPrint.v
theories/ArgSpec.v
theories/ArgModel.v
theories/ArgProofs.v
theories/ArgMain.v
theories/PropertiesArg.v
theories/FunSpec.v
theories/FunModel.v
theories/FunProofs.v
theories/FunMain.v
theories/PropertiesFun.v
theories/FcallSpec.v
theories/FcallModel.v
theories/FcallProofs.v
theories/FcallTmp.v
theories/PropertiesFcall.v
theories/GenericSpec.v
theories/GenericModel.v
theories/GenericProofs.v
theories/PropertiesGeneric.v
theories/EmbedSpec.v
theories/EmbedModel.v
theories/EmbedProofs.v
theories/EmbedErr.v
theories/PropertiesEmbed.v
theories/MarkSpec.v
theories/MarkModel.v
theories/MarkProofs.v
theories/MarkErr.v
theories/PropertiesMark.v
theories/CliSpec.v
theories/CliModel.v
theories/CliProofs.v
theories/PropertiesCli.v
theories/DrvSpec.v
theories/DrvModel.v
theories/DrvProofs.v
theories/PropertiesDrv.v
theories/PragmaSpec.v
theories/PragmaModel.v
theories/PragmaProofs.v
theories/PropertiesPragma.v
theories/OptSpec.v
theories/OptModel.v
theories/OptProofs.v
theories/PropertiesOpt.v
