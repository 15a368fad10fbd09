-Q theories Verif
theories/Analytic.v
theories/AnalyticAbs.v
theories/AnalyticC.v
theories/AnalyticFacts.v
theories/AnalyticLookback.v
theories/CarlsonC.v
theories/CarlsonDup.v
theories/CarlsonGrad.v
theories/CarlsonLoop.v
theories/CarlsonRC.v
theories/CarlsonRJ.v
theories/CarlsonSpec.v
theories/CarlsonTail.v
theories/ComplexArgs.v
theories/ConstFacts.v
theories/ConstPkg.v
theories/ConstSpec.v
theories/ConstVals.v
theories/Constants.v
theories/Cosmo.v
theories/CosmoDist.v
theories/CosmoFacts.v
theories/CosmoSpec.v
theories/DiffDriver.v
theories/Digamma.v
theories/DigammaFacts.v
theories/DigammaSpec.v
theories/EllipGrad.v
theories/EllipGradSpec.v
theories/EllipMain.v
theories/EllipSpec.v
theories/Ellipr.v
theories/ExtLoader.v
theories/Frac.v
theories/FracFacts.v
theories/FuncCtx.v
theories/FuncCtxSpec.v
theories/GammaFn.v
theories/GammaFnFacts.v
theories/GammaFnSpec.v
theories/GammaFun.v
theories/GammaGrad.v
theories/GammaInc.v
theories/GammaIncCF.v
theories/GammaIncCF2.v
theories/GammaIncFacts.v
theories/GammaIncFacts2.v
theories/GammaIncInv.v
theories/GammaIncInvFacts.v
theories/GammaIncInvNewton.v
theories/GammaIncInvSpec.v
theories/GammaIncInvStart.v
theories/GammaIncSpec.v
theories/GammaInt.v
theories/GammaSpec.v
theories/Hyper.v
theories/HyperExp.v
theories/HyperFacts.v
theories/HyperSpec.v
theories/Improper.v
theories/ImproperLim.v
theories/Interp.v
theories/Interp2d.v
theories/InterpFacts.v
theories/InterpND.v
theories/Lanczos.v
theories/LanczosAcc.v
theories/LanczosAcc2.v
theories/LanczosPoly.v
theories/LatexFacts.v
theories/Legendre.v
theories/LegendreGrad.v
theories/NDI.v
theories/NDISpec.v
theories/Odeint.v
theories/OdeintSpec.v
theories/PartFrac.v
theories/PrefixFacts.v
theories/PrefixSpec.v
theories/Prefixes.v
theories/Prop_Absorption.v
theories/Prop_Analytic.v
theories/Prop_ComplexArgs.v
theories/Prop_ConstUnits.v
theories/Prop_Constants.v
theories/Prop_Cosmo.v
theories/Prop_Cosmo2.v
theories/Prop_Cosmo3.v
theories/Prop_Diff.v
theories/Prop_Digamma.v
theories/Prop_Dist.v
theories/Prop_EllipGrad.v
theories/Prop_Ellipr.v
theories/Prop_ExtLoader.v
theories/Prop_Func.v
theories/Prop_GammaFn.v
theories/Prop_GammaGrad.v
theories/Prop_GammaInc.v
theories/Prop_GammaInc2.v
theories/Prop_GammaIncInv.v
theories/Prop_GammaInv.v
theories/Prop_Hyper.v
theories/Prop_Interp.v
theories/Prop_Interp2d.v
theories/Prop_Inverse.v
theories/Prop_LegendreGrad.v
theories/Prop_Lookback.v
theories/Prop_NDI.v
theories/Prop_Odeint.v
theories/Prop_Prefix.v
theories/Prop_PyTree.v
theories/Prop_Quant.v
theories/Prop_Quant2.v
theories/Prop_Quant3.v
theories/Prop_Quant4.v
theories/Prop_Quant5.v
theories/Prop_Quant6.v
theories/Prop_Ragged.v
theories/Prop_RaggedOld.v
theories/Prop_Reduction.v
theories/Prop_Roots.v
theories/Prop_Scope.v
theories/Prop_SigDict.v
theories/Prop_Splines.v
theories/Prop_Units.v
theories/PyTree.v
theories/PyTreeFacts.v
theories/PyTreeSpec.v
theories/QuantFacts.v
theories/QuantFuns.v
theories/QuantMulti.v
theories/QuantSpec.v
theories/Quantities.v
theories/Ragged.v
theories/RaggedFacts.v
theories/RaggedOld.v
theories/RaggedOldSpec.v
theories/RaggedSpec.v
theories/RedAlg.v
theories/RedBase.v
theories/RedGrad.v
theories/RedInt.v
theories/RedMain.v
theories/RedSym.v
theories/Reduction.v
theories/ReductionSpec.v
theories/Reflection.v
theories/Roots.v
theories/RootsC.v
theories/RootsFacts.v
theories/RootsLim.v
theories/RootsPoly.v
theories/RootsPrincipal.v
theories/RootsSpec.v
theories/Scope.v
theories/ScopeFacts.v
theories/ScopeSpec.v
theories/SigDict.v
theories/Splines.v
theories/SplinesCubic.v
theories/SplinesFacts.v
theories/SplinesSpec.v
theories/Stirling.v
theories/Stirling2.v
theories/UnitSpec.v
theories/Units.v
theories/UnitsFacts.v
theories/UnitsThms.v
theories/Wien.v
