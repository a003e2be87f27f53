-Q theories Verif
theories/Base.v
theories/F64.v
theories/Num.v
theories/Types.v
theories/Maths.v
theories/Helpers.v
theories/Parser.v
theories/Eval.v
theories/Print.v
theories/BaseFacts.v
theories/EvalFuel.v
theories/SpecEval.v
theories/EvalProofs.v
theories/EvalTotal.v
theories/EvalRecursion.v
theories/ContextProofs.v
theories/Toy.v
theories/PropEval.v
theories/ParserBase.v
theories/GrammarSpec.v
theories/ParserGrammar.v
theories/ParserGrammar2.v
theories/ParserGrammar3.v
theories/ParserSpec.v
theories/ParserTop.v
theories/PropParser.v
theories/ShapeSpec.v
theories/MathsForms.v
theories/Shapes.v
theories/PropShapes.v
theories/CalcSpec.v
theories/CalcProofs.v
theories/FloatFacts.v
theories/PropCalc.v
theories/PropFloat.v
theories/DecimalText.v
theories/DecimalFloat.v
theories/PropRoundTrip.v
theories/DecimalShort.v
theories/PrintFloat.v
theories/PropPrint.v
theories/LatexSpec.v
theories/PropLatex.v
theories/PropSteps.v
theories/SolveSpec.v
theories/SolveProofs.v
theories/SolveProofs2.v
theories/SolveFloat.v
theories/PropSolve.v
theories/SolveForward.v
theories/Exact.v
theories/ExactSpec.v
theories/ExactLinear.v
theories/ExactRound.v
theories/ExactElim.v
theories/ExactGauss.v
theories/PropExact.v
theories/PropCalcExact.v
theories/PropLinear.v
theories/PropNumber.v
theories/PropRounding.v
theories/EvalRel.v
theories/Parens.v
theories/PropString.v
theories/PropStringFloat.v
theories/PropNotation.v
theories/PropAccuracy.v
theories/LatexGrammar.v
theories/PropLatexReads.v
theories/SpellSpec.v
theories/PropSpell.v
theories/ErrorSpec.v
theories/EvalErrors.v
theories/ParseErrors.v
theories/PropErrors.v
theories/Closure.v
theories/PropResults.v
theories/EvalLim.v
theories/ReplaceSpec.v
theories/Replace.v
theories/PropReplace.v
theories/Api.v
theories/PropApi.v
theories/RenameSpec.v
theories/Rename.v
theories/Alpha.v
theories/PropRename.v
theories/SearchSpec.v
theories/Search.v
theories/PropSearch.v
theories/PropMulti.v
theories/PropMultiExact.v
theories/PropPower.v
theories/KindSpec.v
theories/PropKinds.v
theories/PropAnswers.v
theories/AlgebraSpec.v
theories/PropAlgebra.v
theories/ExactPivot.v
theories/PropPivot.v
theories/PropFinder.v
theories/EstimateSpec.v
theories/PropEstimate.v
theories/RepoTests.v
theories/SlopeSpec.v
theories/PropSlope.v
theories/AreaSpec.v
theories/PropArea.v
theories/PropConstants.v
theories/PropagateSpec.v
theories/PropPropagate.v
theories/PropRoots.v
theories/FloatLaws.v
theories/FloatSqrt.v
theories/PropLaws.v
theories/PropFaults.v
theories/PropRoundDec.v
theories/PropPanics.v
theories/PropNoUnknowns.v
theories/PropIntegers.v
theories/PropTrueRoot.v
theories/PropIntegersClose.v
theories/PropNoAnswer.v
