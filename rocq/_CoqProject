-Q theories Verif
theories/Py.v
theories/Num.v
theories/BayesNet.v
theories/Factor.v
theories/SpecFactor.v
theories/Radix.v
theories/Examples.v
theories/SumOver.v
theories/FactorMul.v
theories/FactorOut.v
theories/FactorMore.v
theories/FactorLaws.v
theories/Properties_Factor.v
theories/Rounding.v
theories/Factorization.v
theories/SpecInference.v
theories/VE.v
theories/VEShape.v
theories/VETotal.v
theories/VEMap.v
theories/Properties_Inference.v
theories/Graph.v
theories/SpecGraph.v
theories/GraphTheory.v
theories/GraphTopsort.v
theories/GraphNet.v
theories/GraphFacts.v
theories/SpecMst.v
theories/Mst.v
theories/Chordal.v
theories/GraphCheck.v
theories/Properties_Graph.v
theories/Data.v
theories/SpecLearn.v
theories/ParamLearn.v
theories/ParamFacts.v
theories/ParamMain.v
theories/NaiveFacts.v
theories/SpecSample.v
theories/Sampling.v
theories/SampleFacts.v
theories/SampleMain.v
theories/SampleLaws.v
theories/Properties_Sample.v
theories/Properties_Learn.v
theories/SpecScore.v
theories/StructScore.v
theories/BayesNetHeap.v
theories/HeapFrame.v
theories/HeapNet.v
theories/HeapEdit.v
theories/HeapBuild.v
theories/HeapSet.v
theories/HeapDefaults.v
theories/StructFacts.v
theories/StructTabu.v
theories/SpecConstraint.v
theories/Constraint.v
theories/ConstraintFacts.v
theories/ConstraintMain.v
theories/Orient.v
theories/Properties_Score.v
theories/PcComplete.v
theories/Properties_Constraint.v
theories/Properties_Orient.v
theories/Properties_Heap.v
theories/Properties_Defaults.v
theories/Text.v
theories/IO.v
theories/SpecIO.v
theories/BifFacts.v
theories/BifNet.v
theories/BifLayout.v
theories/Properties_Layout.v
theories/JsonFacts.v
theories/Properties_IO.v
theories/SpecData.v
theories/DataUtils.v
theories/DataFacts.v
theories/HistFacts.v
theories/DiscFacts.v
theories/MiFacts.v
theories/Properties_Data.v
theories/Properties_Data2.v
theories/SpecIlp.v
theories/Ilp.v
theories/IlpFacts.v
theories/Properties_Ilp.v
theories/CliqueTree.v
theories/SpecClique.v
theories/CliqueFacts.v
theories/CliqueInit.v
theories/CliqueBuild.v
theories/CliqueSend.v
theories/CliqueBP.v
theories/CliqueMain.v
theories/CliqueExact.v
theories/Dirac.v
theories/Junction.v
theories/CliqueNet.v
theories/CliqueRef.v
theories/Properties_Clique.v
theories/SpecReal.v
theories/MiReal.v
theories/RealFacts.v
theories/RealTable.v
theories/RealMi.v
theories/RealChi.v
theories/RealSym.v
theories/Properties_Real.v
theories/InfoReal.v
theories/RealScore.v
theories/ParamReal.v
theories/RealEnt.v
theories/Properties_Real2.v
theories/Properties_Real3.v
theories/SpecTree.v
theories/ChowLiu.v
theories/ChowFacts.v
theories/Properties_Chow.v
theories/Empirical.v
theories/EmpFacts.v
theories/Properties_Emp.v
theories/FastIamb.v
theories/FastFacts.v
theories/Properties_Fast.v
theories/Wrappers.v
theories/Properties_Wrap.v
theories/SpecLaw.v
theories/LawFacts.v
theories/LawMain.v
theories/LawUse.v
theories/Properties_Law.v
theories/SpecLearnLaw.v
theories/LearnLaw.v
theories/Properties_LearnLaw.v
theories/SpecFloat.v
theories/Float.v
theories/FloatFacts.v
theories/FloatMain.v
theories/Binary64.v
theories/FloatMap.v
theories/FloatMapMain.v
theories/Properties_Float.v
theories/SpecSens.v
theories/Sens.v
theories/Properties_Sens.v
theories/SpecLearnInfer.v
theories/LearnInfer.v
theories/Properties_LearnInfer.v
theories/LogReal.v
theories/LogFacts.v
theories/Properties_Real4.v
theories/MbFitness.v
theories/Properties_Fitness.v
theories/FactorHeap.v
theories/FactorHeapFacts.v
theories/FactorHeapSim.v
theories/SpecObjects.v
theories/SpecHistory.v
theories/FzHistory.v
theories/FzTrace.v
theories/QueryErr.v
theories/Properties_Query.v
theories/Properties_Trace.v
theories/Properties_Order.v
theories/Properties_Convention.v
theories/Properties_Empty.v
theories/Properties_Send.v
theories/Hashing.v
theories/Properties_Hash.v
theories/Looking.v
theories/Properties_Look.v
theories/Conformance.v
theories/Properties_Objects.v
theories/SpecClimb.v
theories/StructClimb.v
theories/Properties_Climb.v
theories/StructRestart.v
theories/Properties_Restart.v
theories/HcReal.v
theories/Properties_Real5.v
theories/BayesZero.v
theories/Properties_Bayes.v
theories/Properties_BayesLaw.v
theories/Properties_BayesLimit.v
theories/RowOrder.v
theories/Properties_Rows.v
theories/Properties_Nodes.v
theories/Properties_LearnErr.v
theories/SpecMarkov.v
theories/MarkovFacts.v
theories/MarkovSep.v
theories/Properties_Markov.v
theories/SpecFaithful.v
theories/FaithfulFacts.v
theories/FaithfulMain.v
theories/PerfectTest.v
theories/Properties_Faithful.v
theories/Properties_Coherence.v
theories/Properties_Rename.v
theories/Properties_Rename2.v
