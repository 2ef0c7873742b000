-Q theories Verif
theories/Base.v
theories/Spec.v
theories/SpecDec.v
theories/MaxCliquesModel.v
theories/MaxCliquesProofs.v
theories/PropertiesMaxCliques.v
theories/HeuristicModel.v
theories/HeuristicProofs.v
theories/HeuristicSpec.v
theories/HeuristicExact.v
theories/PropertiesHeuristic.v
theories/GraphModel.v
theories/GraphProofs.v
theories/PropertiesGraph.v
theories/EccModel.v
theories/EccProofs.v
theories/EccOpc.v
theories/EccReach.v
theories/EccTests.v
theories/EccRefute.v
theories/PropertiesEcc.v
theories/NdeModel.v
theories/NdeSpec.v
theories/NdeProofs.v
theories/PropertiesNde.v
theories/EvaluateModel.v
theories/EvaluateProofs.v
theories/PermDistModel.v
theories/PermDistSpec.v
theories/PermDistProofs.v
theories/PermDtype.v
theories/PropertiesEvaluate.v
theories/SampleModel.v
theories/SampleSpec.v
theories/SampleProofs.v
theories/PropertiesSample.v
theories/QSum.v
theories/IndepModel.v
theories/IndepSpec.v
theories/IndepProofs.v
theories/XicorProofs.v
theories/XicorRelabel.v
theories/XicorConst.v
theories/PropertiesIndep.v
theories/RSum.v
theories/GaussModel.v
theories/GaussSpec.v
theories/GaussProofs.v
theories/GaussStats.v
theories/GaussFit.v
theories/DevModel.v
theories/DevSpec.v
theories/DevProofs.v
theories/PropertiesGauss.v
theories/PropertiesDev.v
theories/NcfaModel.v
theories/NcfaSpec.v
theories/NcfaProofs.v
theories/NcfaData.v
theories/PropertiesNcfa.v
theories/LossModel.v
theories/LossSpec.v
theories/LossProofs.v
theories/VaeModel.v
theories/VaeSpec.v
theories/VaeProofs.v
theories/PropertiesVae.v
theories/DagModel.v
theories/DagSpec.v
theories/DagProofs.v
theories/PropertiesDag.v
theories/GridModel.v
theories/GridSpec.v
theories/GridProofs.v
theories/PropertiesGrid.v
theories/CoverModel.v
theories/CoverSpec.v
theories/CoverBounds.v
theories/EccPriv.v
theories/CliqueBound.v
theories/CoverDec.v
theories/Lovasz.v
theories/PropertiesCover.v
theories/ReduceModel.v
theories/ReduceSpec.v
theories/EccAttr.v
theories/UndoProofs.v
theories/EccUndo.v
theories/PropertiesReduce.v
theories/VerifyModel.v
theories/VerifyProofs.v
theories/PropertiesVerify.v
theories/KernelModel.v
theories/KernelProofs.v
theories/PropertiesKernel.v
theories/RngModel.v
theories/RngSpec.v
theories/RngProofs.v
theories/PropertiesRng.v
theories/MomentSpec.v
theories/MomentProofs.v
theories/PropertiesMoment.v
theories/ReconModel.v
theories/ReconSpec.v
theories/ReconProofs.v
theories/PropertiesRecon.v
theories/SampleReach.v
theories/PropertiesReach.v
theories/XicorTiesSpec.v
theories/XicorTies.v
theories/PropertiesXicor.v
theories/VaeBounds.v
theories/PropertiesNet.v
theories/PropertiesErrors.v
theories/NeuralModel.v
theories/NeuralSpec.v
theories/NeuralProofs.v
theories/NeuralFinal.v
theories/PropertiesNeural.v
theories/NeuralRunSpec.v
theories/NeuralRun.v
theories/PropertiesNeuralRun.v
theories/IdentSpec.v
theories/IdentProofs.v
theories/PropertiesIdent.v
theories/LdlProofs.v
theories/LossBest.v
theories/PropertiesLoss.v
theories/MleSpec.v
theories/MleProofs.v
theories/MleInstance.v
theories/Semidef.v
theories/PropertiesMle.v
theories/DtypeModel.v
theories/DtypeProofs.v
theories/PropertiesDtype.v
theories/FsModel.v
theories/FsSpec.v
theories/FsProofs.v
theories/PropertiesFs.v
theories/PoolModel.v
theories/PoolProofs.v
theories/PropertiesPool.v
theories/ConsistProofs.v
theories/PropertiesConsist.v
theories/IdentIff.v
theories/PropertiesIdentIff.v
theories/HeapModel.v
theories/HeapProofs.v
theories/PropertiesHeap.v
theories/UdgHeapModel.v
theories/UdgHeapSpec.v
theories/UdgHeapProofs.v
theories/PropertiesUdgHeap.v
theories/EvalIntModel.v
theories/EvalIntSpec.v
theories/EvalIntProofs.v
theories/PropertiesEvalInt.v
theories/PermFloatModel.v
theories/PermFloatSpec.v
theories/PermFloatProofs.v
theories/PermInfModel.v
theories/PermInfSpec.v
theories/PermInfProofs.v
theories/PropertiesPermFloat.v
theories/VisModel.v
theories/VisSpec.v
theories/VisProofs.v
theories/PropertiesVis.v
theories/BenchModel.v
theories/BenchSpec.v
theories/BenchProofs.v
theories/PropertiesBench.v
theories/ScriptModel.v
theories/ScriptProofs.v
theories/PropertiesScript.v
theories/DiamondSpec.v
theories/DiamondProofs.v
theories/PropertiesDiamond.v
theories/NestedSpec.v
theories/NestedProofs.v
theories/PropertiesNested.v
theories/Explore.v
theories/ExploreProofs.v
theories/SmallProofs.v
theories/PropertiesSmall.v
theories/CliqueCountSpec.v
theories/CliqueCountProofs.v
theories/PropertiesCliqueCount.v
theories/CostModel.v
theories/CostProofs.v
theories/NewEdgeSpec.v
theories/NewEdgeProofs.v
theories/PropertiesCost.v
theories/ParamModel.v
theories/ParamSpec.v
theories/PropertiesParam.v
theories/LsqSpec.v
theories/LsqProofs.v
theories/LsqMain.v
theories/MinExist.v
theories/LsqCluster.v
theories/LsqPure.v
theories/LsqNear.v
theories/PropertiesLsq.v
theories/NucSpec.v
theories/PenProofs.v
theories/PenExact.v
theories/PenLocal.v
theories/PenRotate.v
theories/PenThreshold.v
theories/PropertiesPen.v
theories/ShapeModel.v
theories/PropertiesShape.v
theories/SampleFloatModel.v
theories/SampleFloatSpec.v
theories/SampleFloatProofs.v
theories/PropertiesSampleFloat.v
theories/RelabelSpec.v
theories/RelabelProofs.v
theories/PropertiesRelabel.v
theories/ReorderProofs.v
theories/PropertiesReorder.v
theories/XiRangeProofs.v
theories/PropertiesXiRange.v
theories/MetricProofs.v
theories/PropertiesMetric.v
theories/XiDataModel.v
theories/XiDataProofs.v
theories/PropertiesXiData.v
theories/XiFloatModel.v
theories/XiFloatCalc.v
theories/XiFloatExact.v
theories/XiFloatProofs.v
theories/PropertiesXiFloat.v
theories/NanGraphModel.v
theories/NanGraphProofs.v
theories/PropertiesNanGraph.v
theories/NanFitModel.v
theories/PropertiesNanFit.v
theories/SmallSampleProofs.v
theories/PropertiesSmallSample.v
theories/DcovFloatModel.v
theories/DcovFloatSpec.v
theories/DcovFloatProofs.v
theories/DcovFloatStat.v
theories/PropertiesDcovFloat.v
theories/DcovInfModel.v
theories/PropertiesDcovInf.v
theories/GaussFloatModel.v
theories/GaussFloatSpec.v
theories/GaussFloatProofs.v
theories/GaussFloatPair.v
theories/PropertiesGaussFloat.v
theories/DeviceModel.v
theories/DeviceProofs.v
theories/PropertiesDevice.v
theories/Float32Model.v
theories/PropertiesFloat32.v
theories/NcfaNanModel.v
theories/PropertiesNcfaNan.v
theories/MvnModel.v
theories/PropertiesMvn.v
theories/UnitsSpec.v
theories/PropertiesUnits.v
theories/PropertiesDevUnits.v
theories/PropertiesGroups.v
theories/GaussInfModel.v
theories/PropertiesGaussInf.v
theories/PropertiesIeee.v
theories/PropertiesUnion.v
theories/PropertiesUnionEval.v
theories/PropertiesInSample.v
theories/PropertiesInSampleXi.v
theories/PropertiesCopies.v
theories/PropertiesLeaveOut.v
theories/PropertiesTwins.v
theories/PropertiesRepeat.v
theories/PropertiesDependence.v
theories/PropertiesDcovMatrix.v
