-Q theories Verif
theories/Prelude.v
theories/CodecModel.v
theories/CodecSpec.v
theories/CodecProofs.v
theories/CodecProps.v
theories/SwarModel.v
theories/SwarSpec.v
theories/SwarLanes.v
theories/SwarProofs.v
theories/SwarScan.v
theories/BufferModel.v
theories/BufferSpec.v
theories/BufferProofs.v
theories/BufferReads.v
theories/SwarScan2.v
theories/SwarProps.v
theories/BufferProps.v
theories/LitModel.v
theories/LitSpec.v
theories/LitProofs.v
theories/LitProps.v
theories/ClassModel.v
theories/ClassSpec.v
theories/ClassProofs.v
theories/ClassProps.v
theories/IntModel.v
theories/IntSpec.v
theories/IntProofs.v
theories/IntProps.v
theories/ExprModel.v
theories/ExprSpec.v
theories/ExprTable.v
theories/ExprProofs.v
theories/ExprFuel.v
theories/ExprComplete.v
theories/ExprBridge.v
theories/ExprGrammar.v
theories/ExprLimit.v
theories/ExprMain.v
theories/ExprSample.v
theories/ExprProps.v
theories/RuleModel.v
theories/RuleSpec.v
theories/RuleDen.v
theories/RuleGood.v
theories/ActionModel.v
theories/RuleMain.v
theories/RuleSample.v
theories/RuleProps.v
theories/RuleMono.v
theories/RuleSem.v
theories/RuleLaws.v
theories/RuleLists.v
theories/RuleSeq.v
theories/RuleVars.v
theories/RuleInv.v
theories/RuleChain.v
theories/RuleCtl.v
theories/RuleFacts.v
theories/RuleNoWs.v
theories/RuleSemProps.v
theories/PtModel.v
theories/PtSpec.v
theories/PtMem.v
theories/PtProofs.v
theories/PtNav.v
theories/PtWalk.v
theories/PtExtModel.v
theories/PtActModel.v
theories/PtActSpec.v
theories/PtAct.v
theories/PtMain.v
theories/PtProps.v
theories/TextModel.v
theories/TextSpec.v
theories/TextProofs.v
theories/TextDel.v
theories/TextProps.v
theories/LocModel.v
theories/LocSpec.v
theories/LocProofs.v
theories/LocText.v
theories/LocWf.v
theories/LocAnn.v
theories/LocProps.v
theories/IoModel.v
theories/IoSpec.v
theories/IoProofs.v
theories/IoShell.v
theories/IoProps.v
theories/ArgvModel.v
theories/ArgvSpec.v
theories/ArgvProofs.v
theories/ArgvProps.v
theories/SymModel.v
theories/SymSpec.v
theories/SymProofs.v
theories/SymProps.v
theories/ByteModel.v
theories/ByteSpec.v
theories/ByteProofs.v
theories/ByteProps.v
theories/TokModel.v
theories/TokProps.v
theories/CbModel.v
theories/CbSpec.v
theories/CbProofs.v
theories/CbProps.v
theories/StrModel.v
theories/StrSpec.v
theories/StrProofs.v
theories/StrProps.v
theories/ScanModel.v
theories/ScanSpec.v
theories/ScanProofs.v
theories/ScanProps.v
theories/VisModel.v
theories/VisSpec.v
theories/VisProofs.v
theories/VisText.v
theories/VisShow.v
theories/VisInj.v
theories/VisMain.v
theories/VisProps.v
theories/RepModel.v
theories/RepSpec.v
theories/RepProofs.v
theories/RepText.v
theories/RepMain.v
theories/RepEnd.v
theories/RepProps.v
theories/TvModel.v
theories/TvSpec.v
theories/TvProofs.v
theories/TvMain.v
theories/TvRead.v
theories/TvProps.v
theories/TrModel.v
theories/TrSpec.v
theories/TrProofs.v
theories/TrMain.v
theories/TrEnd.v
theories/TrProps.v
theories/UniTables.v
theories/UniModel.v
theories/UniSpec.v
theories/UniProofs.v
theories/UniCheck.v
theories/UniMain.v
theories/UniFold.v
theories/UniIdent.v
theories/UniProps.v
theories/PtExprModel.v
theories/PtExprSpec.v
theories/PtExprProofs.v
theories/PtExprProps.v
theories/NdModel.v
theories/NdSpec.v
theories/NdProofs.v
theories/NdProps.v
theories/FolModel.v
theories/FolProofs.v
theories/FolProps.v
theories/DtModel.v
theories/DtSpec.v
theories/DtProofs.v
theories/DtProps.v
theories/LazyModel.v
theories/LazySpec.v
theories/LazyProofs.v
theories/LazyProps.v
theories/GtModel.v
theories/GtSpec.v
theories/GtProofs.v
theories/GtProps.v
theories/HaltBase.v
theories/HaltRules.v
theories/HaltRules2.v
theories/HaltRules3.v
theories/HaltRules4.v
theories/HaltSpec.v
theories/HaltProofs.v
theories/HaltEats.v
theories/HaltProps.v
theories/ShiftSpec.v
theories/ShiftModel.v
theories/ShiftBase.v
theories/ShiftProofs.v
theories/ShiftProps.v
theories/LangSpec.v
theories/LangSound.v
theories/LangComplete.v
theories/LangSame.v
theories/LangProps.v
theories/NameModel.v
theories/NameSpec.v
theories/NameProofs.v
theories/NameProps.v
theories/InpModel.v
theories/InpSpec.v
theories/InpProofs.v
theories/InpProps.v
theories/LexModel.v
theories/LexSpec.v
theories/LexProofs.v
theories/LexProps.v
theories/NttpModel.v
theories/NttpProofs.v
theories/NttpProps.v
