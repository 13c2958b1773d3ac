-Q theories Verif
theories/Base.v
theories/FieldTac.v
theories/ND.v
theories/NDFacts.v
theories/PosDef.v
theories/LinAlg.v
theories/LinAlgFacts.v
theories/Gauss.v
theories/GaussFacts.v
theories/GaussEq.v
theories/GaussObj.v
theories/GaussObjFacts.v
theories/Nodes.v
theories/NodesFacts.v
theories/Prop_LinAlg.v
theories/Prop_Gauss.v
theories/GaussLink.v
theories/Prop_Obj.v
theories/Prop_Nodes.v
theories/EPInv.v
theories/EPGauss.v
theories/Transforms.v
theories/TransformFacts.v
theories/UTPsd.v
theories/Prop_Transforms.v
theories/Estimator.v
theories/CondGauss.v
theories/EstimatorFacts.v
theories/Prop_Estimator.v
theories/EPEst.v
theories/EPCase.v
theories/Prop_EP.v
theories/KalmanLoop.v
theories/KalmanLoopFacts.v
theories/SpecGauss.v
theories/KalmanMath.v
theories/Kalman.v
theories/KalmanFacts.v
theories/Prop_Kalman.v
theories/Iterated.v
theories/IteratedMath.v
theories/IteratedFacts.v
theories/SpecNonlin.v
theories/IeksFacts.v
theories/IeksWitness.v
theories/Prop_Iterated.v
theories/Simulate.v
theories/SpecSim.v
theories/SimulateFacts.v
theories/Prop_Simulate.v
theories/Systems.v
theories/SpecSys.v
theories/SystemsFacts.v
theories/Prop_Systems.v
theories/L96.v
theories/SpecL96.v
theories/L96Facts.v
theories/Prop_L96.v
theories/Database.v
theories/FullSweep.v
theories/SpecDb.v
theories/DatabaseFacts.v
theories/SweepFacts.v
theories/SweepDone.v
theories/Prop_Database.v
theories/Metrics.v
theories/SpecMetrics.v
theories/MetricsFacts.v
theories/Prop_Metrics.v
theories/SpecAssumed.v
theories/EPValue.v
theories/EPChain.v
theories/EPSweep.v
theories/AssumedFacts.v
theories/EPSetup.v
theories/Prop_EPKalman.v
theories/EPTaylor.v
theories/Prop_Taylor.v
theories/MonteCarlo.v
theories/EPVector.v
theories/Prop_Vector.v
theories/Scripts.v
theories/SpecScripts.v
theories/ScriptsFacts.v
theories/ScriptsRun.v
theories/ScriptsL96.v
theories/ScriptsIeks.v
theories/BottSweep.v
theories/BottSweepFacts.v
theories/BottDone.v
theories/Prop_Scripts.v
theories/NumJac.v
theories/SpecNumJac.v
theories/NumJacFacts.v
theories/Prop_NumJac.v
theories/Display.v
theories/SpecDisplay.v
theories/DisplayFacts.v
theories/DisplayReport.v
theories/DisplayScripts.v
theories/Prop_Display.v
theories/Program.v
theories/SpecProgram.v
theories/ProgramRows.v
theories/ProgramStop.v
theories/ProgramFacts.v
theories/Prop_Program.v
theories/SpecBP.v
theories/EPPower.v
theories/EPBelief.v
theories/EPPowerRun.v
theories/Prop_EPPower.v
theories/SpecLimit.v
theories/LimitFacts.v
theories/EPLimit.v
theories/EPConverge.v
theories/Prop_EPConverge.v
theories/Outliers.v
theories/SpecOutliers.v
theories/OutliersFacts.v
theories/Prop_Outliers.v
theories/SystemInit.v
theories/SpecInit.v
theories/SystemInitFacts.v
theories/Prop_SystemInit.v
theories/Plot.v
theories/SpecPlot.v
theories/PlotFacts.v
theories/Prop_Plot.v
theories/Float.v
theories/FloatSpec.v
theories/FloatFacts.v
theories/Prop_Float.v
theories/Notebook.v
theories/SpecNotebook.v
theories/NotebookFacts.v
theories/NotebookSweep.v
theories/NotebookDraw.v
theories/NotebookCurves.v
theories/Prop_Notebook.v
theories/FloatMetrics.v
theories/FloatMetricsSpec.v
theories/FloatMetricsFacts.v
theories/FloatMetricsErr.v
theories/Prop_FloatMetrics.v
theories/GaussHeap.v
theories/SpecHeap.v
theories/GaussHeapFacts.v
theories/Prop_Heap.v
theories/FloatL96.v
theories/FloatL96Spec.v
theories/FloatL96Facts.v
theories/FloatL96Num.v
theories/FloatL96Step.v
theories/Prop_FloatL96.v
theories/SpecVague.v
theories/VagueFacts.v
theories/VagueBound.v
theories/Prop_Vague.v
