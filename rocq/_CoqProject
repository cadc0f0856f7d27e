-Q theories Verif
theories/Spec/Eur.v
theories/Proofs/EurLemmas.v
theories/Model/Orders.v
theories/Model/EurEncodings.v
theories/Spec/EncSpec.v
theories/Proofs/EncProofs.v
theories/Proofs/EncProps.v
theories/Properties/C01_EURealEncodings.v
theories/Properties/C02_Orders.v
theories/Properties/C39_Extrema.v
theories/Model/Syntax.v
theories/Spec/Sem.v
theories/Proofs/SemLemmas.v
theories/Model/Builder.v
theories/Model/Dist.v
theories/Model/VcGen.v
theories/Spec/Wp.v
theories/Proofs/WpLemmas.v
theories/Proofs/Vandermonde.v
theories/Proofs/DistProofs.v
theories/Proofs/VcGenProofs.v
theories/Model/Negations.v
theories/Proofs/MonoProofs.v
theories/Proofs/ValidateProofs.v
theories/Properties/C04_Validate.v
theories/Properties/C05_Monotone.v
theories/Properties/C20_Directions.v
theories/Properties/C21_Distributions.v
theories/Properties/C36_Expectation.v
theories/Properties/C03_VcGen.v
theories/Model/TyCtx.v
theories/Model/AstUtil.v
theories/Model/Subst.v
theories/Proofs/TyCtxProofs.v
theories/Model/Symbols.v
theories/Proofs/SubstProofs.v
theories/Proofs/SymbolsProofs.v
theories/Spec/Frame.v
theories/Proofs/FrameProofs.v
theories/Properties/C06_Subst.v
theories/Properties/C26_Variables.v
theories/Properties/C27_FreshNames.v
theories/Properties/C42_Symbols.v
theories/Spec/Loops.v
theories/Model/Lits.v
theories/Model/ProofRules.v
theories/Proofs/LoopProofs.v
theories/Proofs/UnrollProofs.v
theories/Proofs/OmegaProofs.v
theories/Proofs/LoopVc.v
theories/Properties/C13_Induction.v
theories/Properties/C14_Unroll.v
theories/Properties/C15_Omega.v
theories/Model/Boolify.v
theories/Proofs/SimLemmas.v
theories/Proofs/BoolifyProofs.v
theories/Spec/Exprs.v
theories/Properties/C07_Boolify.v
theories/Model/Qelim.v
theories/Model/Unfolder.v
theories/Model/Pipeline.v
theories/Spec/Linear.v
theories/Spec/Valid.v
theories/Proofs/QelimProofs.v
theories/Properties/C08_Qelim.v
theories/Properties/C09_Simplifiers.v
theories/Properties/C10_Unfolder.v
theories/Model/Constfold.v
theories/Model/Relational.v
theories/Model/Egraph.v
theories/Proofs/EgraphProofs.v
theories/Spec/Folding.v
theories/Spec/Reach.v
theories/Proofs/ConstfoldProofs.v
theories/Proofs/RelationalProofs.v
theories/Proofs/UnfolderProofs.v
theories/Proofs/UnfolderExamples.v
theories/Proofs/PipelineProofs.v
theories/Proofs/PipelineExamples.v
theories/Proofs/SimplifyRefuted.v
theories/Properties/C43_Pipeline.v
theories/Model/ScopeMap.v
theories/Model/Resolve.v
theories/Spec/Scoping.v
theories/Proofs/ScopeProofs.v
theories/Properties/C28_Scoping.v
theories/Model/Procs.v
theories/Model/LoopProcs.v
theories/Model/Encode.v
theories/Model/Recursion.v
theories/Spec/Calls.v
theories/Spec/Annotated.v
theories/Spec/Recursion.v
theories/Proofs/CallProofs.v
theories/Proofs/SpecCallProofs.v
theories/Proofs/RecProofs.v
theories/Proofs/ProcVc.v
theories/Proofs/CallRefuted.v
theories/Proofs/CallExamples.v
theories/Proofs/EncodeProofs.v
theories/Proofs/TidyProofs.v
theories/Proofs/SoundnessProofs.v
theories/Proofs/SoundnessRefuted.v
theories/Properties/C11_ProcVerify.v
theories/Properties/C12_SpecCall.v
theories/Proofs/EncodeExamples.v
theories/Properties/C18_Soundness.v
theories/Properties/C38_NoLoops.v
theories/Proofs/RecursionProofs.v
theories/Proofs/UniqueProofs.v
theories/Proofs/RecursionExamples.v
theories/Properties/C19_Recursion.v
theories/Model/Prover.v
theories/Spec/Proving.v
theories/Proofs/ProverProofs.v
theories/Properties/C40_Prover.v
theories/Properties/C24_Minimizer.v
theories/Properties/C25_Subsets.v
theories/Model/SliceSearch.v
theories/Spec/SliceSpec.v
theories/Model/Subsets.v
theories/Spec/SubsetSpec.v
theories/Proofs/SliceSearchProofs.v
theories/Proofs/SliceHistory.v
theories/Proofs/SliceVerdict.v
theories/Proofs/SubsetProofs.v
theories/Proofs/SubsetVerdict.v
theories/Proofs/SubsetExamples.v
theories/Model/Slicing.v
theories/Spec/Sliced.v
theories/Proofs/SlicingProofs.v
theories/Proofs/SlicingSteps.v
theories/Proofs/SlicingVisit.v
theories/Proofs/SlicingForm.v
theories/Proofs/SlicingVerdict.v
theories/Proofs/SlicingRefuted.v
theories/Properties/C22_Slicing.v
theories/Properties/C23_Effects.v
theories/Model/Translate.v
theories/Model/Funcs.v
theories/Model/Depgraph.v
theories/Spec/Translated.v
theories/Spec/Functions.v
theories/Spec/Needs.v
theories/Proofs/DepgraphProofs.v
theories/Proofs/DepgraphExamples.v
theories/Properties/C29_Depgraph.v
theories/Proofs/TranslateTerms.v
theories/Proofs/TranslateStates.v
theories/Proofs/TranslateProofs.v
theories/Proofs/TranslateProps.v
theories/Proofs/TranslateRefuted.v
theories/Proofs/FuncEquations.v
theories/Proofs/FuncAxioms.v
theories/Proofs/FuncModels.v
theories/Proofs/FuncProps.v
theories/Proofs/FuncRaw.v
theories/Proofs/FuncRefuted.v
theories/Proofs/FuncTable.v
theories/Properties/C32_Functions.v
theories/Properties/C41_Translate.v
theories/Spec/CallFree.v
theories/Spec/Termination.v
theories/Proofs/Scaling.v
theories/Proofs/Additive.v
theories/Proofs/TermRules.v
theories/Proofs/TermProcs.v
theories/Proofs/OstProofs.v
theories/Proofs/OstReplace.v
theories/Proofs/AstProofs.v
theories/Proofs/PastProofs.v
theories/Proofs/TermExamples.v
theories/Proofs/OstProc.v
theories/Proofs/OstSound.v
theories/Proofs/TermNested.v
theories/Proofs/TermDemonic.v
theories/Proofs/TermRefuted.v
theories/Proofs/PastNested.v
theories/Properties/C16_Past.v
theories/Properties/C17_Ast.v
theories/Properties/C37_Ost.v
theories/Model/Driver.v
theories/Spec/Verdicts.v
theories/Proofs/DriverProofs.v
theories/Proofs/EntailProofs.v
theories/Proofs/DriverExamples.v
theories/Properties/C30_Verdicts.v
theories/Properties/C31_Entailment.v
theories/Model/Limits.v
theories/Spec/Stops.v
theories/Proofs/LimitsProofs.v
theories/Proofs/LimitsExamples.v
theories/Properties/C44_Stops.v
theories/Model/Tycheck.v
theories/Spec/Typing.v
theories/Proofs/TycheckBase.v
theories/Proofs/TycheckProofs.v
theories/Proofs/TycheckStmts.v
theories/Proofs/TycheckProps.v
theories/Proofs/TycheckExamples.v
theories/Properties/C33_Tycheck.v
theories/Model/Comments.v
theories/Spec/CommentText.v
theories/Proofs/CommentsProofs.v
theories/Properties/C46_Comments.v
theories/Model/Precedence.v
theories/Spec/Reading.v
theories/Proofs/GrammarProofs.v
theories/Proofs/ReadingProofs.v
theories/Proofs/GroupingProofs.v
theories/Proofs/Fingerprints.v
theories/Proofs/RegroupBase.v
theories/Proofs/RegroupProofs.v
theories/Proofs/PrecedenceExamples.v
theories/Properties/C45_Precedence.v
theories/Model/Lists.v
theories/Spec/ListVals.v
theories/Proofs/ListProofs.v
theories/Proofs/ListShow.v
theories/Proofs/ListExamples.v
theories/Properties/C34_Lists.v
theories/Model/Jani.v
theories/Spec/JaniSem.v
theories/Proofs/JaniExpr.v
theories/Proofs/JaniStep.v
theories/Proofs/JaniStates.v
theories/Proofs/JaniFrag.v
theories/Proofs/JaniHoist.v
theories/Proofs/JaniProc.v
theories/Proofs/JaniDet.v
theories/Proofs/JaniExamples.v
theories/Properties/C35_ModelChecking.v
theories/Model/Explain.v
theories/Spec/Explained.v
theories/Proofs/ExplainBase.v
theories/Proofs/ExplainProofs.v
theories/Proofs/ExplainThms.v
theories/Proofs/ExplainRefuted.v
theories/Properties/C47_Explain.v
theories/Model/Printing.v
theories/Spec/Printed.v
theories/Proofs/PrintExprs.v
theories/Proofs/PrintStmts.v
theories/Proofs/PrintTypes.v
theories/Proofs/PrintExamples.v
theories/Properties/C48_Printing.v
theories/Model/Numerals.v
theories/Spec/Decimal.v
theories/Proofs/NumeralProofs.v
theories/Proofs/NumeralReading.v
theories/Proofs/NumeralUnique.v
theories/Properties/C49_Numerals.v
theories/Model/LspServer.v
theories/Spec/LspSpec.v
theories/Proofs/LspBasic.v
theories/Proofs/LspSession.v
theories/Proofs/LspSafe.v
theories/Proofs/LspStatus.v
theories/Proofs/LspRange.v
theories/Proofs/LspView.v
theories/Proofs/LspBacked.v
theories/Proofs/LspExamples.v
theories/Properties/C50_LanguageServer.v
theories/Model/TranslateCache.v
theories/Spec/Cached.v
theories/Proofs/CacheProofs.v
theories/Proofs/CacheProps.v
theories/Proofs/CacheCount.v
theories/Proofs/CacheWrap.v
theories/Proofs/CacheExamples.v
theories/Properties/C51_TranslateCache.v
theories/Model/SharedHeap.v
theories/Spec/SharedSpec.v
theories/Proofs/SharedBasic.v
theories/Proofs/SharedProofs.v
theories/Proofs/SharedOps.v
theories/Proofs/SharedRefine.v
theories/Proofs/SharedWalk.v
theories/Proofs/SharedProps.v
theories/Properties/C52_Shared.v
theories/Model/CexDisplay.v
theories/Spec/CexSpec.v
theories/Proofs/CexProofs.v
theories/Proofs/CexVc.v
theories/Proofs/CexExamples.v
theories/Properties/C53_Counterexample.v
theories/Model/Storm.v
theories/Spec/StormSpec.v
theories/Proofs/StormProofs.v
theories/Proofs/StormRun.v
theories/Properties/C54_Storm.v
theories/Model/Literals.v
theories/Spec/Markers.v
theories/Proofs/LiteralMarks.v
theories/Proofs/LiteralSim.v
theories/Proofs/LiteralProps.v
theories/Properties/C55_Literals.v
theories/Model/Dump.v
theories/Spec/DumpSpec.v
theories/Proofs/DumpProofs.v
theories/Proofs/DumpExamples.v
theories/Properties/C56_Dump.v
theories/Model/ResolveDecls.v
theories/Spec/ModuleScoping.v
theories/Proofs/ModuleProofs.v
theories/Proofs/ModuleSound.v
theories/Proofs/ModuleTotal.v
theories/Proofs/ModuleSafe.v
theories/Proofs/ModuleMore.v
theories/Proofs/ModuleExamples.v
theories/Properties/C57_Modules.v
theories/Spec/Inside.v
theories/Proofs/InsideProofs.v
theories/Proofs/NamesProofs.v
theories/Model/Pgcl.v
theories/Spec/PgclSem.v
theories/Proofs/PgclProofs.v
theories/Proofs/PgclSound.v
theories/Proofs/PgclMore.v
theories/Spec/PgclCost.v
theories/Proofs/PgclTicks.v
theories/Proofs/PgclExamples.v
theories/Model/PgclProc.v
theories/Spec/PgclProcSpec.v
theories/Proofs/PgclProcProofs.v
theories/Proofs/PgclProcExample.v
theories/Properties/C58_Pgcl.v
theories/Model/PgclOmega.v
theories/Proofs/PgclOmegaProofs.v
theories/Proofs/PgclOmegaMain.v
theories/Proofs/PgclOmegaExample.v
theories/Proofs/PgclBmcProofs.v
theories/Proofs/PgclLiberal.v
theories/Spec/PgclWlp.v
theories/Proofs/PgclWlpProofs.v
theories/Proofs/PgclWlpExample.v
theories/Properties/C59_PgclRules.v
theories/Model/PgclPast.v
theories/Spec/PgclIter.v
theories/Proofs/PgclPastProofs.v
theories/Proofs/PgclPastExample.v
theories/Properties/C60_PgclPast.v
