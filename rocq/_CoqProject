-Q theories Verif

theories/Outcome.v
theories/Num.v
theories/PolySpec.v
theories/PolyModel.v
theories/PolyBase.v
theories/PolyProofs.v
theories/PolyCalc.v
theories/PropPoly.v
theories/NumericModel.v
theories/NumericSpec.v
theories/NumericProofs.v
theories/PropNumeric.v
theories/PropSteps.v
theories/RootsModel.v
theories/RootSpec.v
theories/Descartes.v
theories/LMQ.v
theories/Isolate.v
theories/Sturm.v
theories/SolverModel.v
theories/Solve.v
theories/Solver.v
theories/PropRoots.v
theories/PropSolver.v
theories/PropIsolate.v
theories/OrphanModel.v
theories/OrphanSpec.v
theories/PropOrphan.v
theories/ArrayModel.v
theories/PropArray.v
theories/StringModel.v
theories/PropString.v
theories/ExprModel.v
theories/ExprSpec.v
theories/ExprBase.v
theories/ExprSimp.v
theories/ExprVal.v
theories/ExprSub.v
theories/ExprDeriv.v
theories/ExprFold.v
theories/ExprEq.v
theories/ExprShare.v
theories/ExprTerm.v
theories/PropExpr.v
theories/ParserModel.v
theories/ParserSpec.v
theories/ParserBase.v
theories/ParserProofs.v
theories/ParserSound.v
theories/ParserComplete.v
theories/ReprProofs.v
theories/PropParser.v
theories/ParserUB.v
theories/AdModel.v
theories/AdSpec.v
theories/AdProofs.v
theories/PropAd.v
theories/ConstModel.v
theories/PropConst.v
theories/GeomModel.v
theories/PropGeom.v
theories/XmlModel.v
theories/PropXml.v
theories/CtModel.v
theories/CtSpec.v
theories/CtProofs.v
theories/CtSimp.v
theories/CtDeriv.v
theories/CtTaylor.v
theories/CtTaylor2.v
theories/PropCt.v
theories/IntervalModel.v
theories/IntervalSpec.v
theories/PropInterval.v
theories/PyModel.v
theories/PropPy.v
theories/ExceptionModel.v
theories/PropException.v
theories/XmlDocModel.v
theories/XmlDocSpec.v
theories/XmlDocProofs.v
theories/PropXmlDoc.v
theories/BairstowModel.v
theories/BairstowSpec.v
theories/PropBairstow.v
theories/RoundModel.v
theories/PropRound.v
theories/Vincent.v
theories/IsolateTerm.v
theories/VasTerm.v
theories/PropIsolateTerm.v
theories/VcaExact.v
theories/PropVca.v
theories/ExpandModel.v
theories/ExpandSpec.v
theories/ExpandProofs.v
theories/ExpandTerm.v
theories/PropExpand.v
theories/PrintModel.v
theories/PropPrint.v
theories/ReadBack.v
theories/PropReadBack.v
theories/LatexModel.v
theories/LatexSpec.v
theories/PropLatex.v
theories/LatexExact.v
theories/UnitTestModel.v
theories/PropUnitTest.v
theories/FloatModel.v
theories/FloatSpec.v
theories/FloatProofs.v
theories/PropFloat.v
theories/FloatQuad.v
theories/FloatBack.v
theories/PropQuad.v
theories/PropFloatExpr.v
theories/PropSame.v
theories/FloatSolver.v
theories/FloatSturm.v
theories/PropFloatSolver.v
theories/FloatLmq.v
theories/PropFloatLmq.v
theories/PropFloatPrec.v
theories/PropCubic.v
theories/FloatTextModel.v
theories/FloatTextSpec.v
theories/FloatText.v
theories/PropFloatText.v
theories/PyTextModel.v
theories/PropPyText.v
theories/FixArrayModel.v
theories/PropFixArray.v
theories/ConvModel.v
theories/PropConv.v
theories/ConstFloatModel.v
theories/PropConstFloat.v
theories/CtTextModel.v
theories/PropCtText.v
theories/SturmTextModel.v
theories/PropSturmText.v
theories/PropFloatPoly.v
theories/ComplexModel.v
theories/PropPolyRing.v
theories/VecPolyModel.v
theories/PropVecPoly.v
