-Q theories Verif
theories/Base.v
theories/QcX.v
theories/Mat.v
theories/Np.v
theories/S_Chain.v
theories/Gauss.v
theories/M_Chain.v
theories/M_Generators.v
theories/S_Gen.v
theories/S_Gen2.v
theories/L_Gen1.v
theories/L_Gen2.v
theories/L_Gen3.v
theories/L_Gen4.v
theories/L_Gen5.v
theories/Dec.v
theories/L_GenR.v
theories/Ex.v
theories/P_Generators.v
theories/S_Struct.v
theories/M_Struct.v
theories/L_Struct1.v
theories/L_Struct2.v
theories/L_Struct3.v
theories/M_Period.v
theories/S_Period.v
theories/L_Period.v
theories/L_Period2.v
theories/L_Cyclic.v
theories/L_LumpEnum.v
theories/L_StructR.v
theories/P_Structure.v
theories/S_Stationary.v
theories/M_Stationary.v
theories/L_Stationary.v
theories/M_Measures.v
theories/S_Measures.v
theories/L_Measures1.v
theories/L_Measures2.v
theories/L_MaxPrin.v
theories/L_Measures3.v
theories/S_Limit.v
theories/L_Limit.v
theories/L_Limit2.v
theories/L_Limit3.v
theories/L_Ergodic.v
theories/L_Hit.v
theories/S_Nnls.v
theories/L_HitP.v
theories/L_HitT.v
theories/L_Visits.v
theories/L_Nnls.v
theories/ExM.v
theories/L_MeasuresR.v
theories/P_Measures.v
theories/ExL.v
theories/L_LimitR.v
theories/P_Limit.v
theories/M_Simulation.v
theories/S_Simulation.v
theories/ExS.v
theories/L_Simulation.v
theories/P_Simulation.v
theories/M_Hmm.v
theories/S_Hmm.v
theories/S_Hmm2.v
theories/L_Hmm1.v
theories/L_Hmm2.v
theories/L_Hmm3.v
theories/ExH.v
theories/L_Hmm4.v
theories/P_Hmm.v
theories/M_Fitting.v
theories/S_Fitting.v
theories/L_Fitting.v
theories/L_FittingR.v
theories/P_Fitting.v
theories/M_Validation.v
theories/S_Validation.v
theories/L_Valid1.v
theories/L_Valid2.v
theories/L_Valid3.v
theories/L_Valid4.v
theories/ExV.v
theories/L_Valid5.v
theories/P_Validation.v
theories/M_Cache.v
theories/S_Cache.v
theories/L_Cache.v
theories/M_Object.v
theories/S_Object.v
theories/L_Object.v
theories/L_Labels.v
theories/P_Object.v
theories/M_Io.v
theories/S_Io.v
theories/L_Io1.v
theories/L_Io2.v
theories/L_Io3.v
theories/L_Io4.v
theories/M_Json.v
theories/L_Json.v
theories/M_Xml.v
theories/L_Xml.v
theories/M_Files.v
theories/S_Files.v
theories/L_Files.v
theories/L_Files2.v
theories/L_FilesS.v
theories/M_Graph.v
theories/S_Graph.v
theories/L_Graph.v
theories/L_Graph2.v
theories/ExIo.v
theories/L_FilesR.v
theories/P_Io.v
theories/L_Tight.v
theories/P_More.v
theories/S_Sens.v
theories/L_Sens.v
theories/L_StatAll.v
theories/M_Props.v
theories/S_Props.v
theories/L_Props.v
theories/M_Entropy.v
theories/S_Entropy.v
theories/L_Entropy.v
theories/ExP.v
theories/L_PropsR.v
theories/L_Kemeny.v
theories/P_Props.v
theories/S_Bw.v
theories/L_Bw.v
theories/L_Bw2.v
theories/L_Bw3.v
theories/P_Bw.v
theories/S_Graph2.v
theories/L_Tight2.v
theories/P_More2.v
theories/M_Assess.v
theories/S_Assess.v
theories/S_Assess2.v
theories/L_Assess.v
theories/L_Assess2.v
theories/L_Assess3.v
theories/L_Assess4.v
theories/L_Assess5.v
theories/L_Assess6.v
theories/L_Assess7.v
theories/P_Assess.v
theories/M_Aggregate.v
theories/S_Aggregate.v
theories/L_Aggregate.v
theories/L_Aggregate2.v
theories/L_Aggregate3.v
theories/L_Aggregate4.v
theories/P_Aggregate.v
theories/M_HmmRandom.v
theories/S_HmmRandom.v
theories/L_HmmRandom.v
theories/P_HmmRandom.v
theories/M_HmmMore.v
theories/S_HmmLaw.v
theories/L_HmmLaw.v
theories/P_HmmLaw.v
theories/M_Closest.v
theories/S_Closest.v
theories/L_Closest.v
theories/L_Closest2.v
theories/L_Closest3.v
theories/P_Closest.v
theories/Cx.v
theories/M_Spectral.v
theories/S_Spectral.v
theories/L_Spectral.v
theories/L_Spectral2.v
theories/L_Spectral3.v
theories/L_Spectral4.v
theories/L_Spectral5.v
theories/P_Spectral.v
theories/S_Classic.v
theories/L_Classic.v
theories/L_Classic2.v
theories/L_Classic3.v
theories/L_Classic4.v
theories/ExC.v
theories/L_Classic5.v
theories/P_Classic.v
theories/M_Hussey.v
theories/L_Hussey.v
theories/L_Hussey2.v
theories/P_Hussey.v
theories/M_Choice.v
theories/L_Near.v
theories/P_Near.v
theories/M_Disk.v
theories/S_Disk.v
theories/L_Torn.v
theories/L_Torn2.v
theories/L_Torn3.v
theories/L_Torn4.v
theories/L_Torn5.v
theories/L_Torn6.v
theories/L_Disk.v
theories/ExDisk.v
theories/P_Disk.v
theories/M_Det.v
theories/S_Det.v
theories/L_Det.v
theories/L_Det2.v
theories/L_Det3.v
theories/L_Det4.v
theories/P_Det.v
theories/Fl.v
theories/M_Float.v
theories/S_Float.v
theories/L_Float1.v
theories/L_Float2.v
theories/L_Float3.v
theories/L_Float4.v
theories/ExFloat.v
theories/P_Float.v
theories/Calc.v
theories/S_Normal.v
theories/L_Normal.v
theories/L_Bivar.v
theories/S_Adda.v
theories/M_Adda.v
theories/L_Adda.v
theories/L_Adda2.v
theories/P_Adda.v
theories/S_TauchenR.v
theories/M_TauchenR.v
theories/L_TauchenR.v
theories/P_TauchenR.v
theories/S_Trellis.v
theories/M_Trellis.v
theories/L_Trellis.v
theories/L_Trellis2.v
theories/P_Trellis.v
theories/M_Flow.v
theories/S_Flow.v
theories/L_Flow.v
theories/P_Flow.v
theories/M_GraphPlot.v
theories/L_GraphPlot.v
theories/P_GraphPlot.v
theories/L_FloatReg.v
theories/P_FloatReg.v
theories/L_Path.v
theories/P_Path.v
theories/M_Plots.v
theories/S_Plots.v
theories/L_Plots.v
theories/P_Plots.v
theories/M_QuadR.v
theories/L_QuadR.v
theories/L_QuadR2.v
theories/P_QuadR.v
theories/M_TFun.v
theories/L_TFun.v
theories/P_TFun.v
theories/M_KL.v
theories/S_KL.v
theories/L_KL.v
theories/L_KL2.v
theories/L_KL3.v
theories/L_KL4.v
theories/P_KL.v
theories/M_Query.v
theories/S_Query.v
theories/L_Query.v
theories/L_Query2.v
theories/P_Query.v
theories/M_EigPlot.v
theories/S_EigPlot.v
theories/L_EigPlot.v
theories/P_EigPlot.v
theories/M_FloatNorm.v
theories/S_FloatNorm.v
theories/L_FloatNorm.v
theories/P_FloatNorm.v
theories/M_RandDist.v
theories/S_RandDist.v
theories/L_RandDist.v
theories/P_RandDist.v
theories/M_Alias.v
theories/S_Alias.v
theories/L_Alias.v
theories/P_Alias.v
theories/M_FloatSim.v
theories/S_FloatSim.v
theories/L_FloatSim.v
theories/P_FloatSim.v
theories/M_Message.v
theories/S_Message.v
theories/L_Message.v
theories/P_Message.v
theories/M_ModelArg.v
theories/S_ModelArg.v
theories/L_ModelArg.v
theories/P_ModelArg.v
theories/M_FloatRed.v
theories/S_FloatRed.v
theories/L_FloatRed.v
theories/P_FloatRed.v
theories/M_FloatSeq.v
theories/S_FloatSeq.v
theories/L_FloatSeq.v
theories/P_FloatSeq.v
theories/M_FloatHmm.v
theories/S_FloatHmm.v
theories/L_FloatHmm.v
theories/P_FloatHmm.v
theories/M_FloatPredict.v
theories/S_FloatPredict.v
theories/L_FloatPredict.v
theories/P_FloatPredict.v
theories/M_FloatRew.v
theories/S_FloatRew.v
theories/L_FloatRew.v
theories/P_FloatRew.v
theories/M_FloatBirth.v
theories/S_FloatBirth.v
theories/L_FloatBirth.v
theories/P_FloatBirth.v
theories/M_FloatMoran.v
theories/S_FloatMoran.v
theories/L_FloatMoran.v
theories/P_FloatMoran.v
theories/M_FloatUrn.v
theories/S_FloatUrn.v
theories/L_FloatUrn.v
theories/P_FloatUrn.v
theories/M_FloatCanon.v
theories/S_FloatCanon.v
theories/L_FloatCanon.v
theories/P_FloatCanon.v
theories/M_FloatDir.v
theories/S_FloatDir.v
theories/L_FloatDir.v
theories/P_FloatDir.v
theories/M_FloatSub.v
theories/S_FloatSub.v
theories/L_FloatSub.v
theories/P_FloatSub.v
theories/M_FloatRand.v
theories/S_FloatRand.v
theories/L_FloatRand.v
theories/P_FloatRand.v
theories/M_FloatRestr.v
theories/L_FloatRestr.v
theories/P_FloatRestr.v
