-Q theories Verif
theories/VmBase.v
theories/HeapModel.v
theories/HeapObjModel.v
theories/HeapSpec.v
theories/HeapGcProofs.v
theories/HeapInvProofs.v
theories/HeapObjProofs.v
theories/ObjectOpsModel.v
theories/ObjectOpsProofs.v
theories/HeapTidyProofs.v
theories/HeapSafeProofs.v
theories/HeapSafeOps.v
theories/HeapSafeOps2.v
theories/HeapSafeOps3.v
theories/HeapHistory.v
theories/HeapHistoryProofs.v
theories/HeapFrameProofs.v
theories/HeapApiSpec.v
theories/HeapApiProofs.v
theories/HeapProperties.v
theories/KeySpec.v
theories/KeyModel.v
theories/KeyProofs.v
theories/KeyProperties.v
theories/ObjSpec.v
theories/ObjHistorySpec.v
theories/ObjViewProofs.v
theories/ObjDefineProofs.v
theories/ObjOpsProofs.v
theories/ObjArrayProofs.v
theories/ObjTopProofs.v
theories/ObjEssentialProofs.v
theories/ObjHistoryProofs.v
theories/ObjApiProofs.v
theories/ObjUniqueProofs.v
theories/ObjProperties.v
theories/ProtoSpec.v
theories/ProtoProofs.v
theories/ProtoApiProofs.v
theories/ProtoProperties.v
theories/AccessSpec.v
theories/AccessProofs.v
theories/AccessProperties.v
theories/RegistryProofs.v
theories/RegistryProperties.v
theories/EnvSpec.v
theories/EnvFrameProofs.v
theories/EnvProofs.v
theories/EnvProperties.v
theories/JobsModel.v
theories/JobsSpec.v
theories/JobsProofs.v
theories/JobsProperties.v
theories/PromiseModel.v
theories/PromiseSpec.v
theories/PromiseProofs.v
theories/PromiseProperties.v
theories/TrackerModel.v
theories/TrackerSpec.v
theories/TrackerProofs.v
theories/TrackerProperties.v
theories/RustStr.v
theories/RustStrProofs.v
theories/ModuleModel.v
theories/ModuleSpec.v
theories/ModuleProofs.v
theories/ModuleProperties.v
theories/LoadModel.v
theories/LoadSpec.v
theories/LoadProofs.v
theories/LoadProperties.v
theories/ILModel.v
theories/CfgSpec.v
theories/CfgProofs.v
theories/CfgProperties.v
theories/DomModel.v
theories/DomSpec.v
theories/DomProofs.v
theories/DomProperties.v
theories/ILSpec.v
theories/PassModel.v
theories/PassProofs.v
theories/BranchProofs.v
theories/SsaProofs.v
theories/ILCheck.v
theories/PassProperties.v
theories/LiveModel.v
theories/LiveSpec.v
theories/LiveProofs.v
theories/LiveProperties.v
theories/EscModel.v
theories/EscSpec.v
theories/EscProofs.v
theories/EscProperties.v
theories/RustOrd.v
theories/SpanModel.v
theories/SpanSpec.v
theories/SpanProofs.v
theories/SpanProperties.v
theories/LineModel.v
theories/LineSpec.v
theories/LineProofs.v
theories/LineProperties.v
theories/PathModel.v
theories/PathSpec.v
theories/PathProofs.v
theories/PathProperties.v
theories/DiagModel.v
theories/DiagSpec.v
theories/DiagProofs.v
theories/DiagProperties.v
theories/HarnessModel.v
theories/HarnessSpec.v
theories/HarnessProofs.v
theories/HarnessProperties.v
theories/PrimModel.v
theories/PrimSpec.v
theories/PrimProofs.v
theories/PrimProperties.v
theories/InternModel.v
theories/InternProofs.v
theories/InternProperties.v
theories/TyModel.v
theories/TySpec.v
theories/TyProofs.v
theories/TyUnionProofs.v
theories/TyIdProofs.v
theories/TyProperties.v
theories/RenameModel.v
theories/RenameSpec.v
theories/RenameProofs.v
theories/RenameBindProofs.v
theories/RenameExamples.v
theories/RenameProperties.v
theories/PrintModel.v
theories/PrattModel.v
theories/PrintSpec.v
theories/PrattProofs.v
theories/PrintProofs.v
theories/PrintProperties.v
theories/GrammarSpec.v
theories/GrammarProofs.v
theories/GrammarProperties.v
theories/GrammarPrintSpec.v
theories/GrammarPrintProofs.v
theories/GrammarPrintProperties.v
theories/SynModel.v
theories/SynSpec.v
theories/SynExprProofs.v
theories/SynProofs.v
theories/SynReadProofs.v
theories/SynPrintProofs.v
theories/SynProperties.v
theories/WebidlModel.v
theories/WebidlSpec.v
theories/WebidlProofs.v
theories/WebidlFetchProofs.v
theories/WebidlProperties.v
theories/StmtModel.v
theories/StmtSpec.v
theories/StmtProofs.v
theories/StmtMoreProofs.v
theories/StmtDetProofs.v
theories/StmtBackProofs.v
theories/StmtExamples.v
theories/StmtProperties.v
theories/MinModel.v
theories/MinSpec.v
theories/MinProofs.v
theories/MinPassProofs.v
theories/MinLayerProofs.v
theories/MinCombineProofs.v
theories/MinRewriteProofs.v
theories/MinFlowProofs.v
theories/MinRunProofs.v
theories/MinExamples.v
theories/MinProperties.v
theories/RelateModel.v
theories/RelateSpec.v
theories/RelateWitness.v
theories/RelateProofs.v
theories/RelateRuleProofs.v
theories/RelateMainProofs.v
theories/RelateDepthProofs.v
theories/RelateLawProofs.v
theories/RelateProperties.v
theories/ConvModel.v
theories/ConvSpec.v
theories/ConvProofs.v
theories/ConvTextProofs.v
theories/ConvWitness.v
theories/ConvProperties.v
theories/FoldModel.v
theories/FoldSpec.v
theories/FoldNumProofs.v
theories/FoldProofs.v
theories/FoldMainProofs.v
theories/FoldEffectProofs.v
theories/FoldWitness.v
theories/FoldProperties.v
theories/EvalModel.v
theories/EvalSpec.v
theories/EvalNumProofs.v
theories/EvalMathProofs.v
theories/EvalProofs.v
theories/EvalWitness.v
theories/EvalProperties.v
theories/DvnModel.v
theories/DvnSpec.v
theories/DvnProofs.v
theories/DvnWitness.v
theories/DvnFlatProofs.v
theories/DvnProperties.v
theories/CfgPruneModel.v
theories/OptRoundModel.v
theories/RoundProofs.v
theories/RoundProperties.v
theories/CfgPruneSpec.v
theories/CfgPruneProofs.v
theories/CfgPruneProperties.v
theories/SsaModel.v
theories/SsaSpec.v
theories/SsaWitness.v
theories/SsaFormProofs.v
theories/SsaSimProofs.v
theories/SsaBuildProofs.v
theories/SsaFormProperties.v
theories/EarlySpec.v
theories/EarlyProofs.v
theories/EarlyProperties.v
theories/SsaEndProofs.v
theories/SsaEndProperties.v
theories/SsaOnceProofs.v
theories/SsaOnceProperties.v
theories/SsaUseProofs.v
theories/SsaUseProperties.v
theories/SsaPhiProofs.v
theories/SsaPhiProperties.v
theories/SsaStrictProofs.v
theories/SsaStrictProperties.v
theories/SsaRoundProofs.v
theories/SsaRoundProperties.v
theories/LoopFindModel.v
theories/LoopFindSpec.v
theories/LoopFindProofs.v
theories/LoopFindProperties.v
theories/LoopNestProofs.v
theories/LoopInfoModel.v
theories/LoopInfoProofs.v
theories/LoopInfoProperties.v
