-Q theories Verif
theories/Model/Base.v
theories/Model/Value.v
theories/Model/TableCrate.v
theories/Model/RowPar.v
theories/Model/TableOps.v
theories/Model/Get.v
theories/Spec/SortSpec.v
theories/Spec/TableSpec.v
theories/Spec/ParSpec.v
theories/Spec/ColSpec.v
theories/Spec/GroupSpec.v
theories/Spec/FoldSpec.v
theories/Spec/RunSpec.v
theories/Spec/OpsSpec.v
theories/Proofs/ListLemmas.v
theories/Proofs/TableBasics.v
theories/Proofs/ColLemmas.v
theories/Proofs/RowParProofs.v
theories/Proofs/FilterProofs.v
theories/Proofs/SortProofs.v
theories/Proofs/SortByProofs.v
theories/Proofs/GrpProofs.v
theories/Proofs/AppendProofs.v
theories/Proofs/PickProofs.v
theories/Proofs/FoldProofs.v
theories/Proofs/RevProofs.v
theories/Proofs/AddTableProofs.v
theories/Proofs/Filter2Proofs.v
theories/Proofs/GetProofs.v
theories/Proofs/LenProofs.v
theories/Proofs/RectProofs.v
theories/Proofs/Summary1.v
theories/Proofs/Samples.v
theories/Props/C01.v
theories/Props/C02.v
theories/Spec/CacheSpec.v
theories/Proofs/ShareProofs.v
theories/Proofs/LenProofs2.v
theories/Proofs/RectProofs2.v
theories/Proofs/CacheProofs.v
theories/Proofs/GetProofs2.v
theories/Props/C03.v
theories/Props/C04.v
theories/Props/C05.v
theories/Props/C06.v
theories/Props/C07.v
theories/Props/C08.v
theories/Props/C09.v
theories/Props/C10.v
theories/Props/C11.v
theories/Props/C12.v
theories/Props/C13.v
theories/Props/C14.v
theories/Props/C15.v
theories/Props/C16.v
theories/Props/C17.v
theories/Props/C18.v
theories/Model/Utf.v
theories/Model/Shell.v
theories/Spec/ShellSpec.v
theories/Proofs/HistoryProofs.v
theories/Proofs/UtfLemmas.v
theories/Proofs/EditProofs.v
theories/Proofs/CmplProofs.v
theories/Proofs/OutputsProofs.v
theories/Proofs/TabsProofs.v
theories/Props/C48.v
theories/Props/C49.v
theories/Props/C50.v
theories/Props/C51.v
theories/Props/C52.v
theories/Model/Lsp.v
theories/Spec/LspSpec.v
theories/Proofs/LspProofs.v
theories/Props/C53.v
theories/Props/C54.v
theories/Model/Print.v
theories/Spec/PrintSpec.v
theories/Proofs/PrintProofs.v
theories/Props/C44.v
theories/Model/SavePath.v
theories/Spec/PathSpec.v
theories/Proofs/PathProofs.v
theories/Props/C43.v
theories/Model/FsCache.v
theories/Spec/FsCacheSpec.v
theories/Proofs/FsCacheProofs.v
theories/Props/C42.v
theories/Model/Batch.v
theories/Spec/BatchSpec.v
theories/Proofs/BatchProofs.v
theories/Props/C41.v
theories/Model/Parts.v
theories/Spec/PartsSpec.v
theories/Proofs/PartSetProofs.v
theories/Proofs/PartsTreeProofs.v
theories/Proofs/PartsBuildProofs.v
theories/Proofs/PartsUseProofs.v
theories/Proofs/PartsFinalProofs.v
theories/Proofs/PartsSeqProofs.v
theories/Proofs/PartsSamples.v
theories/Props/C45.v
theories/Props/C46.v
theories/Props/C47.v
theories/Model/Tuple.v
theories/Spec/TupleSpec.v
theories/Proofs/TupleProofs.v
theories/Props/C36.v
theories/Model/Ast.v
theories/Model/Registry.v
theories/Spec/RegistrySpec.v
theories/Proofs/RegistryProofs.v
theories/Proofs/RegistrySamples.v
theories/Props/C33.v
theories/Props/C34.v
theories/Model/AstGraph.v
theories/Spec/AstGraphSpec.v
theories/Proofs/AstFlatProofs.v
theories/Proofs/AstExpandProofs.v
theories/Proofs/AstGraphProofs.v
theories/Proofs/AstLookupProofs.v
theories/Proofs/AcyclicProofs.v
theories/Props/C35.v
theories/Props/C40.v
theories/Model/Parse.v
theories/Spec/ParseSpec.v
theories/Proofs/ParseSpanProofs.v
theories/Proofs/ParseWriteProofs.v
theories/Proofs/ParseMainProofs.v
theories/Proofs/ParseSamples.v
theories/Props/C38.v
theories/Props/C39.v
theories/Model/File.v
theories/Spec/FileSpec.v
theories/Proofs/FileSplitProofs.v
theories/Proofs/FileDocProofs.v
theories/Proofs/FileMainProofs.v
theories/Props/C37.v
theories/Model/Infer.v
theories/Spec/InferSpec.v
theories/Proofs/InferProofs.v
theories/Props/C31.v
theories/Model/Block.v
theories/Spec/BlockSpec.v
theories/Proofs/BlockProofs.v
theories/Props/C26.v
theories/Model/TyGraph.v
theories/Spec/TyGraphSpec.v
theories/Proofs/TyGraphProofs.v
theories/Proofs/ResolveProofs.v
theories/Props/C28.v
theories/Props/C29.v
theories/Props/C30.v
theories/Model/Locals.v
theories/Spec/LocalsSpec.v
theories/Proofs/AstTypedProofs.v
theories/Proofs/LocalsGraphProofs.v
theories/Proofs/LocalsBuildProofs.v
theories/Proofs/LocalsProofs.v
theories/Proofs/LocalsRunProofs.v
theories/Proofs/LocalsSealProofs.v
theories/Proofs/LocalsTop.v
theories/Props/C32.v
theories/Model/Exec.v
theories/Model/Link.v
theories/Spec/ExecSpec.v
theories/Spec/NamedSpec.v
theories/Proofs/LinkProofs.v
theories/Proofs/ScopedProofs.v
theories/Proofs/ExecProofs.v
theories/Props/C23.v
theories/Props/C25.v
theories/Model/EnvHeap.v
theories/Spec/EnvSpec.v
theories/Proofs/EnvHeapProofs.v
theories/Proofs/EnvEvalProofs.v
theories/Props/C24.v
theories/Model/Intrinsics.v
theories/Spec/LogicSpec.v
theories/Proofs/LogicProofs.v
theories/Props/C21.v
theories/Props/C22.v
theories/Model/Compare.v
theories/Spec/TypeSpec.v
theories/Spec/CompareSpec.v
theories/Proofs/CompareProofs.v
theories/Proofs/DerivedProofs.v
theories/Props/C19.v
theories/Props/C20.v
theories/Model/Typed.v
theories/Spec/TypingSpec.v
theories/Proofs/TypedProofs.v
theories/Proofs/TypedTables.v
theories/Proofs/TypedTables2.v
theories/Proofs/TypedOps.v
theories/Proofs/TypedSound.v
theories/Proofs/TypedMore.v
theories/Proofs/TypedAll.v
theories/Proofs/TypedCompile.v
theories/Proofs/TypedExample.v
theories/Props/C27.v
theories/Model/Highlight.v
theories/Spec/LexSpec.v
theories/Proofs/AstInd.v
theories/Proofs/LexProofs.v
theories/Proofs/HighlightProofs.v
theories/Proofs/NodeAtProofs.v
theories/Proofs/BlockRange.v
theories/Props/C55.v
theories/Props/C56.v
theories/Model/Excerpt.v
theories/Spec/ExcerptSpec.v
theories/Proofs/ExcerptProofs.v
theories/Props/C57.v
theories/Model/ShellDirs.v
theories/Spec/DirSpec.v
theories/Proofs/DirProofs.v
theories/Props/C58.v
theories/Model/FsMap.v
theories/Spec/FsMapSpec.v
theories/Proofs/FsMapProofs.v
theories/Proofs/FsMapFinal.v
theories/Proofs/FsMapSamples.v
theories/Props/C59.v
theories/Model/Arith.v
theories/Spec/ArithSpec.v
theories/Proofs/FloatProofs.v
theories/Proofs/ArithProofs.v
theories/Props/C60.v
theories/Model/TyBuild.v
theories/Spec/TyBuildSpec.v
theories/Proofs/TyBuildBase.v
theories/Proofs/TyBuildEdges.v
theories/Proofs/TyBuildNodes.v
theories/Proofs/TyBuildFlow.v
theories/Proofs/TyBuildProofs.v
theories/Props/C61.v
theories/Spec/AstNoteSpec.v
theories/Proofs/AstNoteProofs.v
theories/Proofs/AstNoteTypes.v
theories/Props/C62.v
theories/Model/Compile.v
theories/Model/ArgApi.v
theories/Spec/CompileSpec.v
theories/Proofs/CompileProofs.v
theories/Proofs/CompileInv.v
theories/Proofs/VarTypes.v
theories/Proofs/CompileRuns.v
theories/Proofs/CompileErr.v
theories/Proofs/CompileTop.v
theories/Props/C63.v
theories/Spec/HaltSpec.v
theories/Proofs/HaltLex.v
theories/Proofs/HaltLocals.v
theories/Proofs/HaltTypes.v
theories/Proofs/HaltBatch.v
theories/Proofs/HaltProofs.v
theories/Spec/ArgSpec.v
theories/Proofs/ArgProofs.v
theories/Proofs/CallProofs.v
theories/Proofs/ArgSamples.v
theories/Props/C65.v
theories/Props/C66.v
theories/Spec/ParamSpec.v
theories/Proofs/ParamLocals.v
theories/Proofs/ParamAsks.v
theories/Proofs/ParamInv.v
theories/Proofs/HaltProg.v
theories/Proofs/ParamSamples.v
theories/Props/C67.v
theories/Model/Ops.v
theories/Spec/OpSpec.v
theories/Proofs/OpsBase.v
theories/Proofs/OpsArgs.v
theories/Proofs/OpsVars.v
theories/Proofs/OpsProofs.v
theories/Proofs/OpsTop.v
theories/Proofs/HaltOps.v
theories/Proofs/HaltRun.v
theories/Proofs/HaltTop.v
theories/Proofs/OpsSamples.v
theories/Props/C64.v
theories/Props/C68.v
theories/Model/SaveText.v
theories/Spec/SaveSpec.v
theories/Proofs/SaveTextProofs.v
theories/Props/C69.v
theories/Model/Listing.v
theories/Spec/ListingSpec.v
theories/Proofs/ListingProofs.v
theories/Props/C70.v
theories/Spec/AskSpec.v
theories/Proofs/AskProofs.v
theories/Props/C71.v
theories/Model/DefText.v
theories/Spec/DefTextSpec.v
theories/Proofs/DefTextProofs.v
theories/Props/C72.v
theories/Model/Complete.v
theories/Spec/CompleteSpec.v
theories/Proofs/CompleteProofs.v
theories/Props/C73.v
theories/Model/Expect.v
theories/Spec/ExpectSpec.v
theories/Proofs/ExpectProofs.v
theories/Proofs/ExpectPath.v
theories/Props/C74.v
theories/Model/ParseTy.v
theories/Spec/ParseTySpec.v
theories/Proofs/ParseTyProofs.v
theories/Proofs/ParseTySound.v
theories/Props/C75.v
theories/Spec/LooseSpec.v
theories/Proofs/LooseProofs.v
theories/Proofs/LooseLetters.v
theories/Props/C76.v
theories/Model/DefGet.v
theories/Spec/DefGetSpec.v
theories/Proofs/DefGetProofs.v
theories/Props/C77.v
theories/Model/Load.v
theories/Spec/LoadSpec.v
theories/Proofs/LoadProofs.v
theories/Proofs/LoadOrder.v
theories/Props/C78.v
theories/Model/HelpList.v
theories/Spec/HelpSpec.v
theories/Proofs/HelpProofs.v
theories/Props/C79.v
theories/Model/Annotate.v
theories/Spec/AnnotateSpec.v
theories/Proofs/AnnotateProofs.v
theories/Props/C80.v
theories/Model/Server.v
theories/Spec/ServerSpec.v
theories/Proofs/ServerProofs.v
theories/Props/C81.v
theories/Model/CommandLine.v
theories/Spec/CommandLineSpec.v
theories/Proofs/CommandLineProofs.v
theories/Props/C82.v
theories/Model/BatchText.v
theories/Spec/BatchTextSpec.v
theories/Proofs/BatchTextProofs.v
theories/Props/C83.v
theories/Model/Wrap.v
theories/Spec/WrapSpec.v
theories/Proofs/WrapProofs.v
theories/Props/C84.v
theories/Model/Rand.v
theories/Spec/RandSpec.v
theories/Proofs/RandProofs.v
theories/Props/C85.v
