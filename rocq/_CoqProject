-Q theories Verif
theories/Prelude.v
theories/Bits.v
theories/BitsProofs.v
theories/Par.v
theories/Cplx.v
theories/Spec.v
theories/Kernels.v
theories/KernelsProofs.v
theories/KernelsProofs2.v
theories/KernelsProofs3.v
theories/KernelsProofs4.v
theories/IndexProofs.v
theories/PropertiesIndex.v
theories/Pauli.v
theories/PauliSpec.v
theories/PauliProofs.v
theories/Gates.v
theories/GateSpec.v
theories/GatesProofs.v
theories/PermProofs.v
theories/GatesProofs2.v
theories/GatesProofs3.v
theories/GatesProofs4.v
theories/GatesProofs5.v
theories/GatesProofs6.v
theories/GatesProofs7.v
theories/GatesProofs8.v
theories/GatesProofs9.v
theories/PropertiesGates.v
theories/Reduce.v
theories/Operator.v
theories/OperatorSpec.v
theories/OperatorHist.v
theories/OperatorProofs.v
theories/OperatorProofs2.v
theories/OperatorProofs3.v
theories/OperatorProofs4.v
theories/TransitionProofs.v
theories/PropertiesOperator.v
theories/Text.v
theories/PauliText.v
theories/PauliTextSpec.v
theories/TextProofs.v
theories/PauliTextProofs.v
theories/PauliTextProofs2.v
theories/PropertiesPauli.v
theories/Merge.v
theories/MergeSpec.v
theories/MergeProofs.v
theories/MergeProofs2.v
theories/MergeProofs3.v
theories/MergeProofs4.v
theories/MergeProofs5.v
theories/MergeProofs6.v
theories/PropertiesMerge.v
theories/Host.v
theories/State.v
theories/StateSpec.v
theories/StateProofs.v
theories/StateProofs2.v
theories/StateProofs3.v
theories/StateProofs4.v
theories/PropertiesState.v
theories/Circuit.v
theories/CircuitSpec.v
theories/CircuitProofs.v
theories/CircuitProofs2.v
theories/CircuitProofs3.v
theories/CircuitProofs4.v
theories/CircuitProofs5.v
theories/CircuitProofs6.v
theories/CircuitProofs7.v
theories/CircuitProofs8.v
theories/CircuitProofs9.v
theories/CircuitProofs10.v
theories/CircuitProofs11.v
theories/CircuitProofs12.v
theories/CircuitProofs13.v
theories/CircuitProofs14.v
theories/CircuitProofs15.v
theories/CircuitProofs16.v
theories/CircuitProofs17.v
theories/CircuitProofs18.v
theories/CircuitProofs19.v
theories/Optimize.v
theories/OptimizeSpec.v
theories/OptimizeProofs.v
theories/OptimizeProofs2.v
theories/OptimizeProofs3.v
theories/OptimizeProofs4.v
theories/OptimizeProofs5.v
theories/OptimizeProofs6.v
theories/OptimizeProofs7.v
theories/OptimizeProofs8.v
theories/OptimizeProofs9.v
theories/OptimizeProofs10.v
theories/OptimizeProofs11.v
theories/OptimizeProofs12.v
theories/PropertiesOptimize.v
theories/PropertiesCircuit.v
theories/Noise.v
theories/NoiseSpec.v
theories/NoiseProofs.v
theories/NoiseProofs2.v
theories/NoiseProofs3.v
theories/NoiseProofs4.v
theories/NoiseProofs5.v
theories/NoiseProofs6.v
theories/NoiseProofs7.v
theories/PropertiesNoise.v
theories/Random.v
theories/RandomProofs.v
theories/PropertiesRandom.v
theories/QasmText.v
theories/Qasm.v
theories/QasmSpec.v
theories/QasmProofs.v
theories/QasmProofs2.v
theories/QasmProofs3.v
theories/QasmProofs4.v
theories/QasmProofs5.v
theories/QasmProofs6.v
theories/QasmProofs7.v
theories/QasmProofs8.v
theories/QasmProofs9.v
theories/PropertiesQasm.v
theories/Density.v
theories/DensitySpec.v
theories/DensityProofs.v
theories/DensityProofs2.v
theories/DensityProofs3.v
theories/DensityProofs4.v
theories/DensityProofs5.v
theories/DensityProofs6.v
theories/DensityProofs7.v
theories/DensityProofs8.v
theories/PropertiesDensity.v
theories/Atomic.v
theories/OperatorBatched.v
theories/OperatorBatchedSpec.v
theories/OperatorBatchedProofs.v
theories/OperatorBatchedProofs2.v
theories/OperatorBatchedProofs3.v
theories/OperatorBatchedProofs4.v
theories/RowProofs.v
theories/PropertiesOperatorBatched.v
theories/Gradient.v
theories/GradientSpec.v
theories/GradientProofs.v
theories/GradientProofs2.v
theories/GradientProofs3.v
theories/GradientProofs4.v
theories/GradientProofs5.v
theories/GradientProofs6.v
theories/GradientProofs7.v
theories/GradientProofs8.v
theories/PropertiesGradient.v
theories/Json.v
theories/JsonSpec.v
theories/JsonProofs.v
theories/JsonProofs2.v
theories/JsonProofs3.v
theories/JsonProofs4.v
theories/JsonProofs5.v
theories/MatrixJson.v
theories/MatrixJsonProofs.v
theories/PropertiesJson.v
theories/Ground.v
theories/GroundSpec.v
theories/GroundProofs.v
theories/GroundProofs2.v
theories/GroundProofs3.v
theories/GroundProofs4.v
theories/GroundProofs5.v
theories/GroundProofs6.v
theories/GroundProofs7.v
theories/GroundProofs8.v
theories/GroundProofs9.v
theories/PropertiesGround.v
theories/Rotation.v
theories/RotationSpec.v
theories/RotationProofs.v
theories/RotationProofs2.v
theories/RotationProofs3.v
theories/RotationProofs4.v
theories/RotationProofs5.v
theories/RotationProofs6.v
theories/PropertiesRotation.v
theories/Haar.v
theories/HaarSpec.v
theories/HaarProofs.v
theories/HaarProofs2.v
theories/PropertiesHaar.v
theories/InverseSpec.v
theories/InverseProofs.v
theories/InverseProofs2.v
theories/PropertiesInverse.v
theories/Float.v
theories/FloatSpec.v
theories/FloatProofs.v
theories/FloatProofs2.v
theories/FloatProofs3.v
theories/FloatProofs4.v
theories/FloatProofs5.v
theories/FloatProofs9.v
theories/FloatProofs10.v
theories/FloatProofs11.v
theories/FloatProofs6.v
theories/FloatProofs7.v
theories/FloatProofs8.v
theories/PropertiesFloat.v
theories/FloatState.v
theories/FloatStateSpec.v
theories/FloatProofs12.v
theories/FloatProofs13.v
theories/FloatProofs14.v
theories/FloatProofs15.v
theories/FloatProofs16.v
theories/FloatProofs17.v
theories/FloatProofs18.v
theories/PropertiesFloatState.v
theories/SimulationSpec.v
theories/FloatProofs19.v
theories/FloatProofs20.v
theories/PropertiesSimulation.v
theories/FloatCircuit.v
theories/FloatMeasureSpec.v
theories/FloatProofs21.v
theories/FloatProofs22.v
theories/FloatProofs23.v
theories/FloatProofs24.v
theories/FloatProofs25.v
theories/FloatProofs26.v
theories/PropertiesMeasurement.v
theories/Objects.v
theories/ObjectsSpec.v
theories/ObjectsProofs.v
theories/ObjectsProofs2.v
theories/ObjectsProofs3.v
theories/ObjectsProofs4.v
theories/ObjectsDensity.v
theories/ObjectsDensityProofs.v
theories/PropertiesObjects.v
theories/ChannelSpec.v
theories/ChannelProofs.v
theories/ChannelProofs2.v
theories/ChannelProofs3.v
theories/ChannelProofs4.v
theories/ChannelProofs5.v
theories/PropertiesChannel.v
theories/NoiseMeanSpec.v
theories/NoiseMeanProofs.v
theories/NoiseMeanProofs2.v
theories/NoiseMeanProofs3.v
theories/NoiseMeanProofs4.v
theories/NoiseMeanProofs5.v
theories/PropertiesNoiseMean.v
theories/SamplingMeanSpec.v
theories/SamplingMeanProofs.v
theories/SamplingMeanProofs2.v
theories/PropertiesSamplingMean.v
theories/PlaceSpec.v
theories/PlaceProofs.v
theories/PlaceProofs2.v
theories/PlaceProofs3.v
theories/PlaceProofs4.v
theories/PlaceProofs5.v
theories/PropertiesPlace.v
theories/ReadSpec.v
theories/ReadProofs.v
theories/ReadProofs2.v
theories/ReadProofs3.v
theories/ReadProofs4.v
theories/PropertiesRead.v
theories/Front.v
theories/FrontSpec.v
theories/FrontProofs.v
theories/FrontProofs2.v
theories/PropertiesFront.v
theories/OrderSpec.v
theories/OrderProofs.v
theories/OrderProofs2.v
theories/OrderProofs3.v
theories/OrderProofs4.v
theories/PropertiesOrder.v
theories/Reports.v
theories/ReportSpec.v
theories/ReportProofs.v
theories/PropertiesReport.v
theories/SignalProofs.v
theories/SignalProofs2.v
theories/SignalProofs3.v
theories/SignalProofs4.v
theories/PropertiesSignal.v
theories/DeferSpec.v
theories/DeferProofs.v
theories/DeferProofs2.v
theories/DeferProofs3.v
theories/PropertiesDefer.v
theories/BornSpec.v
theories/BornProofs.v
theories/BornProofs2.v
theories/PropertiesBorn.v
theories/LinearSpec.v
theories/LinearProofs.v
theories/PropertiesLinear.v
theories/SequenceSpec.v
theories/SequenceProofs.v
theories/PropertiesSequence.v
theories/Print.v
theories/PrintSpec.v
theories/PrintProofs.v
theories/PrintProofs2.v
theories/PrintProofs3.v
theories/PropertiesPrint.v
theories/PrintMore.v
theories/PrintProofs4.v
theories/PrintProb.v
theories/PrintProbSpec.v
theories/PrintProofs5.v
theories/PropertiesPrint2.v
theories/IdentitySpec.v
theories/IdentityProofs.v
theories/IdentityProofs2.v
theories/IdentityProofs3.v
theories/IdentityProofs4.v
theories/IdentityProofs5.v
theories/IdentityProofs6.v
theories/IdentityProofs7.v
theories/IdentityProofs8.v
theories/IdentityProofs11.v
theories/IdentityProofs12.v
theories/IdentityProofs13.v
theories/PropertiesIdentity.v
theories/IdentityDensitySpec.v
theories/IdentityProofs9.v
theories/IdentityProofs10.v
theories/PropertiesIdentity2.v
