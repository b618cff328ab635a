-Q theories Verif
theories/LexTables.v
theories/ParseTables.v
theories/AttrNames.v
theories/SpecAttrNames.v
theories/LRCert.v
theories/Base.v
theories/Ast.v
theories/Lexer.v
theories/Parser.v
theories/ParserDefs.v
theories/ParserSound.v
theories/ParserComplete.v
theories/ParserViable.v
theories/ParserErrors.v
theories/LexSpec.v
theories/LexDfa.v
theories/LexerProofs.v
theories/Tokens.v
theories/LexFacts.v
theories/SpecGrammar.v
theories/GrammarProofs.v
theories/ParseFacts.v
theories/AnonProofs.v
theories/PropsParse.v
theories/Cost.v
theories/PropsCost.v
theories/SpecSep.v
theories/PropsSep.v
theories/TokNames.v
theories/RecParser.v
theories/RecProofs.v
theories/ErrText.v
theories/SpecNumber.v
theories/LexPrint.v
theories/SpecAst.v
theories/TrimFacts.v
theories/AstProofs.v
theories/AstFacts.v
theories/NumberProofs.v
theories/SpecErr.v
theories/ErrProofs.v
theories/PropsErr.v
theories/PropsAst.v
theories/Walk.v
theories/SpecWalk.v
theories/WalkProofs.v
theories/PropsWalk.v
theories/Rand.v
theories/PropsRand.v
theories/Conc.v
theories/ConcProofs.v
theories/PropsConc.v
theories/Maps.v
theories/Graph.v
theories/SpecGraph.v
theories/MapFacts.v
theories/GraphProofs.v
theories/Direct.v
theories/SpecDirect.v
theories/DirectProofs.v
theories/AttrMap.v
theories/PropsGraph.v
theories/PropsGraphTight.v
theories/Analyse.v
theories/SpecAnalyse.v
theories/AnalyseProofs.v
theories/ReadProofs.v
theories/PropsAnalyse.v
theories/WalkAnalyse.v
theories/PropsVisitors.v
theories/Write.v
theories/SpecWrite.v
theories/EdgeOrder.v
theories/WriteProofs.v
theories/WriteFacts.v
theories/WriteFacts2.v
theories/PropsWrite.v
theories/SpecTop.v
theories/TopProofs.v
theories/TopProofs2.v
theories/PropsTop.v
theories/PropsDirect.v
theories/SpecImage.v
theories/ImageProofs.v
theories/PropsImage.v
theories/SpecCount.v
theories/CountProofs.v
theories/PropsCount.v
theories/PropsLong.v
theories/Escape.v
theories/SpecEscape.v
theories/EscapeProofs.v
theories/EscapeFacts.v
theories/EscapeInj.v
theories/PropsEscape.v
theories/PropsEscape2.v
theories/PropsEscape3.v
theories/NormCalls.v
theories/SpecRound.v
theories/RoundCalls.v
theories/RoundCalls2.v
theories/RoundProofs.v
theories/RoundWrite.v
theories/RoundFinal.v
theories/TidyCheck.v
theories/PropsRound.v
theories/ReadFacts.v
theories/PropsReread.v
theories/Prune.v
theories/PropsText.v
theories/SpecCluster.v
theories/ClusterText.v
theories/PropsCluster.v
theories/PropsBuild.v
theories/HeapGraph.v
theories/SpecHeap.v
theories/HeapProofs.v
theories/HeapSnap.v
theories/HeapRange.v
theories/HeapAnalyse.v
theories/HeapEscape.v
theories/SpecHeapAnalyse.v
theories/HeapAnalyseProofs.v
theories/HeapEscapeProofs.v
theories/PropsHeap.v
theories/SpecOrder.v
theories/OrderProofs.v
theories/PropsOrder.v
theories/PropsKind.v
theories/SpecUndo.v
theories/PropsUndo.v
theories/SpecPrefix.v
theories/PrefixProofs.v
theories/PropsPrefix.v
theories/HeapWrite.v
theories/SpecLook.v
theories/LookProofs.v
theories/LookWrite.v
theories/LookSort.v
theories/PropsLook.v
theories/SpecMerge.v
theories/MergeProofs.v
theories/PropsMerge.v
theories/HeapEdit.v
theories/SpecHeapEdit.v
theories/HeapEditProofs.v
theories/PropsHeapEdit.v
theories/HeapAlias.v
theories/SpecAlias.v
theories/AliasImg.v
theories/AliasCalls.v
theories/AliasProofs.v
theories/AliasSteps.v
theories/AliasAll.v
theories/PropsAlias.v
theories/Slices.v
theories/SlicesProofs.v
theories/SpecSlices.v
theories/PropsSlices.v
theories/Rename.v
theories/SpecRename.v
theories/RenameProofs.v
theories/PropsRename.v
theories/RenameMany.v
theories/PropsRenameMany.v
theories/Ends.v
theories/SpecEnds.v
theories/PropsEnds.v
theories/Zero.v
theories/SpecZero.v
theories/ZeroProofs.v
theories/ZeroProofs2.v
theories/ZeroProofs3.v
theories/ZeroProofs4.v
theories/ZeroProofs5.v
theories/ZeroWrite.v
theories/PropsZero.v
theories/SpecLabel.v
theories/SpecDraw.v
theories/LabelProofs.v
theories/LabelAnalyse.v
theories/LabelWrite.v
theories/LabelProofs2.v
theories/LabelRead.v
theories/PropsLabel.v
theories/EscapeAnalyse.v
theories/SpecEscRead.v
theories/EscReadProofs.v
theories/PropsEscRead.v
theories/SpecRewrite.v
theories/RewriteProofs.v
theories/PropsRewrite.v
theories/Shared.v
theories/SpecShared.v
theories/SharedProofs.v
theories/PropsShared.v
theories/Pool.v
theories/SpecPool.v
theories/PoolFrame.v
theories/PoolIndex.v
theories/PoolProofs.v
theories/PoolSteps.v
theories/PoolEvents.v
theories/PoolEvents2.v
theories/PoolAlone.v
theories/PoolPtrs.v
theories/PoolBuilt.v
theories/PropsPool.v
theories/Source.v
theories/SpecSource.v
theories/SourceProofs.v
theories/PropsSource.v
theories/TreeMem.v
theories/SpecTree.v
theories/TreeProofs.v
theories/TreeRun.v
theories/PropsTree.v
theories/SpecSharp.v
theories/SharpProofs.v
theories/SharpNeed.v
theories/PropsSharp.v
theories/RawTree.v
theories/SpecRaw.v
theories/RawProofs.v
theories/RawAnalyse.v
theories/RawRun.v
theories/RawStop.v
theories/RawMake.v
theories/SpecMake.v
theories/MakeProofs.v
theories/PropsRaw.v
theories/Holes.v
theories/SpecHoles.v
theories/HolesProofs.v
theories/HolesPanics.v
theories/HolesWrite.v
theories/PropsHoles.v
theories/SpecBody.v
theories/BodyProofs.v
theories/PropsBody.v
theories/SpecLines.v
theories/LinesProofs.v
theories/PropsLines.v
theories/SpecSame.v
theories/PropsSame.v
theories/SpecRemove.v
theories/PropsRemove.v
theories/SpecEdit.v
theories/PropsEdit.v
