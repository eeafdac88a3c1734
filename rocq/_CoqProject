-Q theories Verif
theories/Num.v
theories/Vec.v
theories/MKnots.v
theories/MPoints.v
theories/MCurve.v
theories/MFit.v
theories/MMerge.v
theories/MGenerate.v
theories/RNum.v
theories/QNum.v
theories/F64.v
theories/QSolve.v
theories/Hoare.v
theories/Lists.v
theories/Spec.v
theories/BMath.v
theories/BMath2.v
theories/BMath3.v
theories/BMath4.v
theories/Struct.v
theories/Api.v
theories/Bridge.v
theories/Facts1.v
theories/Facts2.v
theories/Divisions.v
theories/Samples.v
theories/P_Eval.v
theories/P_Basis.v
theories/P_Deriv.v
theories/BMath5.v
theories/Facts3.v
theories/Facts4.v
theories/Facts5.v
theories/Facts6.v
theories/Facts7.v
theories/Facts8.v
theories/Facts9.v
theories/Facts10.v
theories/Facts11.v
theories/SamplesB.v
theories/P_Reverse.v
theories/P_Insert.v
theories/Split2.v
theories/P_Split.v
theories/P_Coherent.v
theories/P_Search.v
theories/P_New.v
theories/Gen1.v
theories/Gen2.v
theories/Gen3.v
theories/Gen4.v
theories/P_Knots.v
theories/P_Manual.v
theories/LinAlg.v
theories/SW.v
theories/Fit1.v
theories/Fit2.v
theories/Fit3.v
theories/Fit4.v
theories/Fit5.v
theories/Fit6.v
theories/Fit7.v
theories/P_Fit.v
theories/Merge1.v
theories/Merge2.v
theories/Merge3.v
theories/Merge4.v
theories/Merge5.v
theories/Merge6.v
theories/Merge7.v
theories/Merge8.v
theories/Merge9.v
theories/Merge10.v
theories/MergeQ.v
theories/Merge11.v
theories/P_Merge.v
theories/ApiF.v
theories/Float1.v
theories/Float2.v
theories/Float3.v
theories/Float4.v
theories/Float5.v
theories/Float6.v
theories/Float7.v
theories/Float8.v
theories/Float9.v
theories/Float10.v
theories/P_Float.v
theories/P_Float2.v
theories/Shape1.v
theories/Shape2.v
theories/P_Shape.v
theories/Fit8.v
theories/Fit9.v
theories/P_FitMaps.v
theories/Shape3.v
theories/Insert2.v
theories/P_Shape2.v
theories/Fit10.v
theories/P_Fit2.v
theories/Merge12.v
theories/P_Merge2.v
theories/ApiF2.v
theories/ApiC.v
theories/Float11.v
theories/Float12.v
theories/Float13.v
theories/Float14.v
theories/Coord.v
theories/Coord2.v
theories/P_Float3.v
theories/Stab.v
theories/Float15.v
theories/Float16.v
theories/ApiF3.v
theories/Float17.v
theories/P_Float4.v
theories/Float18.v
theories/Float19.v
theories/P_Float5.v
theories/ApiN.v
theories/FitNear.v
theories/P_Fit3.v
theories/Shape5.v
theories/P_Shape3.v
theories/Float20.v
theories/Float21.v
theories/P_Float6.v
theories/Float22.v
theories/P_Float7.v
theories/ApiS.v
theories/Shape6.v
theories/Shape7.v
theories/P_Shape4.v
theories/Merge13.v
theories/ApiT.v
theories/Total.v
theories/P_Total.v
theories/ApiL.v
theories/Coord3.v
theories/Rev2.v
theories/FitHeavy.v
theories/FitLine.v
theories/Gen5.v
theories/P_Maps.v
theories/P_Fit4.v
theories/P_Manual2.v
theories/Float24.v
theories/P_Float8.v
theories/ApiM.v
theories/Marsden.v
theories/Shape8.v
theories/P_Poly.v
theories/ApiJ.v
theories/Merge14.v
theories/Merge15.v
theories/Merge16.v
theories/Float25.v
theories/Float26.v
theories/P_Merge3.v
theories/Float27.v
theories/P_Float9.v
theories/Cond.v
theories/P_Cond.v
theories/ApiO.v
theories/Fit11.v
theories/Fit12.v
theories/Jackson.v
theories/Shape9.v
theories/P_Order.v
theories/Unclamped.v
theories/Sizes.v
theories/Merge17.v
theories/P_Free.v
theories/Float28.v
theories/P_Float10.v
theories/Bare.v
theories/P_Derived.v
theories/ApiP.v
theories/Coord4.v
theories/Coord5.v
theories/P_Program.v
theories/Stab2.v
theories/Float29.v
theories/Float30.v
theories/Float31.v
theories/P_Float11.v
theories/Float32.v
theories/P_Float12.v
theories/Merge18.v
theories/Merge19.v
theories/Float33.v
theories/P_Float13.v
theories/ApiQ.v
theories/Float34.v
theories/Float35.v
theories/Float36.v
theories/P_Float14.v
theories/ApiR.v
theories/Run.v
theories/P_Run.v
theories/Float37.v
theories/P_Float15.v
theories/MDirect.v
theories/ApiU.v
theories/Direct1.v
theories/Direct2.v
theories/P_Direct.v
theories/Refine1.v
theories/P_Refine.v
theories/ApiV.v
theories/Svd1.v
theories/Svd2.v
theories/Svd3.v
theories/Svd4.v
theories/Svd5.v
theories/Svd6.v
theories/P_Cutoff.v
theories/Views.v
theories/P_Views.v
theories/Views2.v
theories/P_Views2.v
theories/Peaks.v
theories/P_Peaks.v
theories/Sampling.v
theories/Sampling2.v
theories/P_Sampling.v
theories/ApiW.v
theories/Svd7.v
theories/Svd8.v
theories/Svd9.v
theories/P_Cutoff2.v
theories/MDebug.v
theories/Debug.v
theories/P_Debug.v
theories/ApiX.v
theories/Arc.v
theories/Arc2.v
theories/Arc3.v
theories/Arc4.v
theories/Arc5.v
theories/P_Length.v
theories/Anti.v
theories/Mean2.v
theories/P_Mean.v
theories/Conformance.v
theories/ApiK.v
theories/Float23.v
theories/Split3.v
theories/Incoherent.v
theories/Universal.v
theories/P_General.v
theories/Merge20.v
theories/P_Merge4.v
