-Q theories Verif
theories/A2A.v
theories/AcceptClaims.v
theories/AcceptTab.v
theories/AnyClaims.v
theories/AnySims.v
theories/Args.v
theories/ArgsClaims.v
theories/AvgClaims.v
theories/AvgClaims2.v
theories/AvgFacts.v
theories/Base.v
theories/BaseClaims.v
theories/BaseShape.v
theories/BelowOne.v
theories/Binom.v
theories/BooksClaims.v
theories/Boot.v
theories/BootAccept.v
theories/BootClaims.v
theories/BootClaims2.v
theories/BootDet.v
theories/BootDetClaims.v
theories/BootExact.v
theories/BootFit.v
theories/BootForm.v
theories/BootFormL.v
theories/BootIndep.v
theories/BootIndepClaims.v
theories/BootLib.v
theories/BootNoise.v
theories/BootSim.v
theories/BootSum.v
theories/BootSumClaims.v
theories/BsPlot.v
theories/BsPlotClaims.v
theories/BuildFacts.v
theories/ConvFacts.v
theories/ConvIff.v
theories/CumExact.v
theories/CumFacts.v
theories/CumTabClaims.v
theories/Curve.v
theories/CurveClaims.v
theories/CyFacts.v
theories/Diag.v
theories/DiagFacts.v
theories/Dist.v
theories/DistClaims.v
theories/DistRows.v
theories/DrawClaims.v
theories/DrawFall.v
theories/EmergeClaims.v
theories/EmergeClaims2.v
theories/EndClaims.v
theories/EndFacts.v
theories/Enlarge.v
theories/EnlargeClaims.v
theories/EnlargeMid.v
theories/ExMack.v
theories/ExTri.v
theories/ExclBase.v
theories/ExclClaims.v
theories/FillFacts.v
theories/Frame.v
theories/Gauss.v
theories/GaussTail.v
theories/IncTabClaims.v
theories/Infer.v
theories/InferClaims.v
theories/LeakClaims.v
theories/ListLib.v
theories/Mack.v
theories/MackClaims.v
theories/MackClaims2.v
theories/MackClaims3.v
theories/MackExplicit.v
theories/MackFacts.v
theories/MackInClaims.v
theories/MackSum.v
theories/MackSumClaims.v
theories/MackW.v
theories/MackWClaims.v
theories/NamesClaims.v
theories/NoiseIff.v
theories/OrderClaims.v
theories/OrderTab.v
theories/PanelClaims.v
theories/Panels.v
theories/PeriodClaims.v
theories/PermVar.v
theories/Plot.v
theories/PlotClaims.v
theories/Print.v
theories/PrintClaims.v
theories/ProcClaims.v
theories/PropsAccept.v
theories/PropsAny.v
theories/PropsAnySims.v
theories/PropsArgs.v
theories/PropsAvg.v
theories/PropsBase.v
theories/PropsBelowOne.v
theories/PropsBooks.v
theories/PropsBoot.v
theories/PropsBootAccept.v
theories/PropsBootDet.v
theories/PropsBootExact.v
theories/PropsBootExcl.v
theories/PropsBootSum.v
theories/PropsBsPlot.v
theories/PropsCols.v
theories/PropsConv.v
theories/PropsCumTab.v
theories/PropsCurve.v
theories/PropsDiag.v
theories/PropsDist.v
theories/PropsDistRows.v
theories/PropsDraw.v
theories/PropsDrawFall.v
theories/PropsEmerge.v
theories/PropsEnd.v
theories/PropsEnlarge.v
theories/PropsExcl.v
theories/PropsExclBase.v
theories/PropsIncTab.v
theories/PropsInfer.v
theories/PropsLeak.v
theories/PropsMack.v
theories/PropsMackIn.v
theories/PropsMackSum.v
theories/PropsNames.v
theories/PropsNoiseIff.v
theories/PropsOrder.v
theories/PropsOrderTab.v
theories/PropsPanels.v
theories/PropsPlot.v
theories/PropsPrint.v
theories/PropsProc.v
theories/PropsQuant.v
theories/PropsRaise.v
theories/PropsRange.v
theories/PropsRebuild.v
theories/PropsRel.v
theories/PropsRelabBoot.v
theories/PropsResid.v
theories/PropsRound.v
theories/PropsRound2.v
theories/PropsScaleBoot.v
theories/PropsSim.v
theories/PropsSimL.v
theories/PropsSims.v
theories/PropsSpace.v
theories/PropsState.v
theories/PropsStream.v
theories/PropsTotri.v
theories/PropsTri1.v
theories/PropsTri2.v
theories/PropsUtils.v
theories/PropsYoungBoot.v
theories/PropsZero.v
theories/QcLib.v
theories/QtlClaims.v
theories/Quant.v
theories/QuantClaims.v
theories/QuantCols.v
theories/QuantFacts.v
theories/RaiseClaims.v
theories/RangeClaims.v
theories/RangePrint.v
theories/RebuildClaims.v
theories/RegFacts.v
theories/RelClaims.v
theories/RelClaims2.v
theories/RelClaims3.v
theories/RelFacts.v
theories/RelabBoot.v
theories/RelabBootClaims.v
theories/Resid.v
theories/ResidClaims.v
theories/Round.v
theories/Round2.v
theories/Round2Claims.v
theories/RoundClaims.v
theories/ScaleBoot.v
theories/ScaleBootAll.v
theories/ScaleBootClaims.v
theories/ScaleBootTab.v
theories/SimClaims.v
theories/SimLClaims.v
theories/Sims.v
theories/SimsClaims.v
theories/SimsFacts.v
theories/SimsForm.v
theories/SpaceClaims.v
theories/SpearFacts.v
theories/Spec.v
theories/Spec2.v
theories/SpecAccept.v
theories/SpecAcceptTab.v
theories/SpecAny.v
theories/SpecArgs.v
theories/SpecBand.v
theories/SpecBooks.v
theories/SpecBootDet.v
theories/SpecBootSum.v
theories/SpecCols.v
theories/SpecCum.v
theories/SpecCumTab.v
theories/SpecCurve.v
theories/SpecDist.v
theories/SpecDraw.v
theories/SpecEmerge.v
theories/SpecEnd.v
theories/SpecExcl.v
theories/SpecIncTab.v
theories/SpecInfer.v
theories/SpecLeak.v
theories/SpecPanels.v
theories/SpecPeriod.v
theories/SpecPlot.v
theories/SpecPrint.v
theories/SpecProc.v
theories/SpecQuant.v
theories/SpecRaise.v
theories/SpecRange.v
theories/SpecRel.v
theories/SpecRelab.v
theories/SpecRound.v
theories/SpecRound2.v
theories/SpecSim.v
theories/SpecSimL.v
theories/SpecSpace.v
theories/SpecStack.v
theories/SpecState.v
theories/SpecStream.v
theories/SpecTail.v
theories/SpecTotri.v
theories/SpecUnits.v
theories/SpecUtils.v
theories/SpecZero.v
theories/StackClaims.v
theories/State.v
theories/StateBuilt.v
theories/StateClaims.v
theories/StateFacts.v
theories/TblFacts.v
theories/TotriClaims.v
theories/TotriFacts.v
theories/TriClaims.v
theories/TriClaims2.v
theories/TriClaims3.v
theories/TriClaims4.v
theories/TriClaims5.v
theories/Triangle.v
theories/Utils.v
theories/UtilsClaims.v
theories/Val.v
theories/Validation.v
theories/YoungBoot.v
theories/ZeroClaims.v
