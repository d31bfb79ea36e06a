-Q theories Verif
theories/Base.v
theories/Det.v
theories/Nd.v
theories/NdFacts.v
theories/Api.v
theories/Jvp.v
theories/Spec.v
theories/ApiFacts.v
theories/JacFacts.v
theories/DenseFacts.v
theories/BcastFacts.v
theories/DiagFacts.v
theories/CompactFacts.v
theories/IndexFacts.v
theories/SumFacts.v
theories/ReduceFacts.v
theories/RedRows.v
theories/OboFacts.v
theories/Prims.v
theories/Check.v
theories/Props_Jvp.v
theories/Scatter.v
theories/ApiExact.v
theories/Props_Api.v
theories/Props_Api2.v
theories/Hessian.v
theories/HessSpec.v
theories/BatchFacts.v
theories/HessCore.v
theories/HessBatch.v
theories/HessIdx.v
theories/HessFacts.v
theories/HessLoc.v
theories/HessVmap.v
theories/HessDot.v
theories/HessTop.v
theories/HessPrims.v
theories/HessRules.v
theories/Split.v
theories/HessForms.v
theories/Props_Hess.v
theories/Wrap.v
theories/Rules.v
theories/Alias.v
theories/Props_Alias.v
theories/Jet.v
theories/LogDet.v
theories/Env.v
theories/Interp.v
theories/InterpFacts.v
theories/InterpScan.v
theories/ScanReset.v
theories/FwdLapl.v
theories/Registry.v
theories/Props_Interp.v
theories/Slog.v
theories/Props_Hess2.v
theories/Calc.v
theories/CalcRun.v
theories/CalcOps.v
theories/SlogCalc.v
theories/DetJet.v
theories/CalcFun.v
theories/Total.v
theories/SparseTotal.v
theories/DotGen.v
theories/DotFacts.v
theories/DotCalc.v
theories/SparseRules.v
theories/Cplx.v
theories/CplxEnc.v
theories/CplxFun.v
theories/ScatRule.v
theories/CplxPrims.v
theories/CplxAbs.v
theories/CplxSlog.v
theories/CplxSlogPrim.v
theories/CalcPrims.v
theories/Layout.v
theories/Layout2.v
theories/ScatLayout.v
theories/LayoutCalc.v
theories/RegOps.v
theories/DenseRows.v
theories/CalcTop.v
theories/CalcPlain.v
theories/DepCalc.v
theories/CxMarks.v
theories/CxPlain.v
theories/TotalCalc.v
theories/Multi.v
theories/Props_Total.v
theories/Props_Calc.v
theories/Props_Slog.v
theories/Props_Cplx2.v
theories/Props_Slog2.v
theories/Props_Reg.v
theories/Props_RegVal.v
theories/TightRows.v
theories/TightCalc.v
theories/CxStatic.v
theories/SparseProg.v
theories/CxSparse.v
theories/Flow.v
theories/Props_Static.v
theories/Props_CxStatic.v
theories/Props_SparseTotal.v
theories/Props_CxSparse.v
theories/Props_Flow.v
theories/Props_Layout.v
theories/Props_Dep.v
theories/Props_Scan.v
theories/Vmap.v
theories/VmapFacts.v
theories/Props_Vmap.v
theories/Memory.v
theories/MemFacts.v
theories/MemExact.v
theories/Props_Memory.v
theories/Props_Cplx.v
theories/Trees.v
theories/Props_Trees.v
theories/Operators.v
theories/Props_Flow2.v
theories/Logging.v
theories/Props_DotGen.v
theories/Props_Exact.v
theories/Props_Multi.v
