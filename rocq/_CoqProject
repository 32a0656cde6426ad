-Q theories Verif
theories/PyStr.v
theories/PyRe.v
theories/PyNum.v
theories/OpFun.v
theories/Tokens.v
theories/OpTable.v
theories/Scan.v
theories/Parse.v
theories/Unparse.v
theories/PTypes.v
theories/Ops.v
theories/UserRe.v
theories/ReSound.v
theories/ReScan.v
theories/ReParse.v
theories/ReShift.v
theories/ReLit.v
theories/OpsSeq.v
theories/Apply.v
theories/Heap.v
theories/Exec.v
theories/ReFacts.v
theories/ReLang.v
theories/StrFacts.v
theories/NumFacts.v
theories/NumCmp.v
theories/Spec.v
theories/SpecRun.v
theories/SpecList.v
theories/PFacts.v
theories/SeqProof.v
theories/RunOp.v
theories/SeqProof2.v
theories/FindProof.v
theories/RangeProof.v
theories/NumProof.v
theories/NumProof2.v
theories/HalveProof.v
theories/SortProof.v
theories/ListProof.v
theories/CutProof.v
theories/CombProof.v
theories/ItemProof.v
theories/PropSeq.v
theories/PropNum.v
theories/PropList.v
theories/SpecSyntax.v
theories/SpecScan.v
theories/ParseEq.v
theories/ParseProof.v
theories/PrecProof.v
theories/FinalProof.v
theories/LexProof.v
theories/LexProof2.v
theories/LexProof3.v
theories/ScanProof.v
theories/PropSyntax.v
theories/SpecHeap.v
theories/HeapProof.v
theories/ExecRel.v
theories/ExecInv.v
theories/SpecExec.v
theories/ProgProof.v
theories/PropExec.v
theories/EvalProof.v
theories/SpecVars.v
theories/VarProof.v
theories/CtlProof.v
theories/PureProof.v
theories/PropVars.v
theories/LoopProof.v
theories/PropCtl.v
theories/MutProof.v
theories/PropMut.v
theories/OrderProof.v
theories/PropOrder.v
theories/SpecMeta.v
theories/MetaProof.v
theories/PropMeta.v
theories/SpecAlias.v
theories/AliasProof.v
theories/AliasStart.v
theories/PropAlias.v
theories/SpecRepr.v
theories/ReprProof.v
theories/PropRepr.v
theories/Main.v
theories/SpecMain.v
theories/MainProof.v
theories/PropMain.v
theories/SpecBlock.v
theories/UnparseProof.v
theories/ParenProof.v
theories/BlockProof.v
theories/PropBlock.v
theories/ParseMono.v
theories/SpecGrammar.v
theories/TemplateProof.v
theories/GrammarProof.v
theories/GrammarSound.v
theories/GrammarComplete.v
theories/GrammarOpen.v
theories/ResumeProof.v
theories/PropGrammar.v
theories/SpecRepl.v
theories/ReplProof.v
theories/PropRepl.v
theories/SpecRegex.v
theories/ReAlg.v
theories/RegexProof.v
theories/RegexScan.v
theories/RegexStrip.v
theories/PropRegex.v
theories/SpecMatch.v
theories/MatchProof.v
theories/PropMatch.v
theories/SpecMap.v
theories/MapProof.v
theories/FilterProof.v
theories/PropMap.v
theories/SpecArith.v
theories/ArithProof.v
theories/PropArith.v
theories/SpecText.v
theories/TextProof.v
theories/PropText.v
theories/SpecRand.v
theories/RandProof.v
theories/PropRand.v
theories/SpecPick.v
theories/PickProof.v
theories/SpecEach.v
theories/EachProof.v
theories/SpecRec.v
theories/RecProof.v
theories/EqProof.v
theories/PropEach.v
theories/SpecLam.v
theories/LamProof.v
theories/SpecAug.v
theories/AugProof.v
theories/PropLam.v
theories/SpecFun.v
theories/FunProof.v
theories/FunProof2.v
theories/PropFun.v
theories/StandProof.v
theories/PropFun2.v
theories/SpecImp.v
theories/ImpProof.v
theories/ImpProof2.v
theories/ImpProof3.v
theories/ImpProof4.v
theories/ImpProof5.v
theories/SpecImp2.v
theories/ImpProof6.v
theories/ImpProof7.v
theories/ImpProof8.v
theories/PropImp.v
theories/Source.v
theories/SpecSource.v
theories/SourceProof.v
theories/PropSource.v
theories/XargsProof.v
theories/PropXargs.v
