-Q theories Verif
theories/Base.v
theories/Num.v
theories/Spec.v
theories/SpecFacts.v
theories/Laws.v
theories/Terms.v
theories/Dense.v
theories/Sparse.v
theories/Mono.v
theories/Bino.v
theories/Trino.v
theories/ArrPoly.v
theories/DenseFacts.v
theories/DenseArith.v
theories/DenseMul.v
theories/DenseCalc.v
theories/DenseShift.v
theories/DenseDiv.v
theories/DenseMut.v
theories/DenseMulInt.v
theories/Wrap.v
theories/DenseDivInt.v
theories/DenseCalcInt.v
theories/SparseFacts.v
theories/SparseArith.v
theories/SparseCalc.v
theories/SparseDiv.v
theories/FixedFacts.v
theories/PolyMath.v
theories/P_Dense1.v
theories/P_Dense2.v
theories/P_Sparse1.v
theories/P_Sparse2.v
theories/P_Fixed1.v
theories/P_Fixed2.v
theories/MutFacts.v
theories/P_Mut.v
theories/Strs.v
theories/Integr.v
theories/StrFacts.v
theories/StrShow.v
theories/P_Str.v
theories/P_Str2.v
theories/P_Str3.v
theories/P_Integral.v
theories/Numerics.v
theories/NumericsFacts.v
theories/Floats.v
theories/FloatFacts.v
theories/P_Num.v
theories/Upcast.v
theories/UpcastFacts.v
theories/P_Upcast.v
theories/FloatDiv.v
theories/P_FloatDiv.v
theories/Roots.v
theories/RealNum.v
theories/RootFacts.v
theories/P_Roots1.v
theories/P_Roots2.v
theories/RootLoop.v
theories/RootSpecial.v
theories/P_Roots3.v
theories/FloatRoots.v
theories/P_Roots4.v
theories/Sim.v
theories/SimSparse.v
theories/SimFixed.v
theories/SimInst.v
theories/SimText.v
theories/SimRoots.v
theories/P_Sim1.v
theories/P_Sim2.v
theories/P_Sim3.v
theories/BoundedZ.v
theories/BoundedPow.v
theories/P_Bounded.v
theories/ExactZ.v
theories/P_Exact.v
theories/Expr.v
theories/P_Expr.v
theories/FloatErr.v
theories/FloatEval.v
theories/Coef.v
theories/FloatMul.v
theories/FloatCoef.v
theories/FloatSparse.v
theories/P_FloatErr.v
theories/P_IntDiv.v
theories/FloatQuad.v
theories/P_FloatQuad.v
theories/P_FloatQuad2.v
theories/P_Analytic.v
theories/P_Struct.v
theories/SpecDegree.v
theories/P_Degree.v
theories/FloatText.v
theories/P_FloatText.v
theories/P_Err.v
theories/P_Mult.v
theories/P_FloatMut.v
theories/P_Const.v
theories/P_FloatRep.v
theories/P_FloatPow.v
theories/Complex.v
theories/P_Complex.v
theories/P_FloatUndo.v
theories/P_RootsEval.v
theories/P_FloatDivErr.v
theories/P_FloatCalc.v
theories/P_FloatPowi.v
theories/P_Equal.v
theories/P_Spacing.v
theories/P_FloatSparseCalc.v
theories/P_TextCanon.v
theories/P_Rounds.v
theories/P_FloatDiv2.v
theories/P_FloatQuad3.v
theories/P_Sim5.v
theories/P_DegreeScale.v
theories/P_FloatText2.v
theories/P_Complex2.v
theories/P_FloatSparseDiv.v
theories/P_IntFactors.v
theories/P_FloatFactors.v
theories/P_RootOrder.v
theories/P_Modular.v
theories/P_RootsRep.v
theories/P_FloatPolyPow.v
theories/P_FloatSparsePow.v
theories/P_FloatPowFinite.v
theories/P_FloatMirror.v
theories/P_FloatMirror2.v
theories/P_IntLimits.v
theories/P_RepeatedRoots.v
theories/P_FloatBound.v
theories/P_FloatSign.v
theories/P_Newton.v
theories/P_FloatSink.v
theories/P_RealRoots.v
theories/P_Taylor.v
theories/P_Differences.v
theories/P_Derivs.v
theories/RepoTests.v
theories/Assumptions.v
