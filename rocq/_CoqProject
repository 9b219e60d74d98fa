-Q theories Verif
theories/Base.v
theories/LinAlg.v
theories/ByteCodec.v
theories/Estimators.v
theories/BatchProofs.v
theories/BatchRun.v
theories/FirProofs.v
theories/EstProps.v
theories/P_Estimators.v
theories/ByteCodecProofs.v
theories/P_Codec.v
theories/FixedPoint.v
theories/FixedPointProofs.v
theories/P_FixedPoint.v
theories/FirExtras.v
theories/FirExtrasProofs.v
theories/P_FirExtras.v
theories/Signals.v
theories/SignalsProofs.v
theories/P_Signals.v
theories/DigitalControl.v
theories/DigitalControlProofs.v
theories/ControlKinds.v
theories/UnitElements.v
theories/UnitElementsProofs.v
theories/P_Control.v
theories/AnalogSystem.v
theories/AnalogProofs.v
theories/ChainProofs.v
theories/StackProofs.v
theories/TfProofs.v
theories/Zpk.v
theories/ZpkProofs.v
theories/ZpkExtra.v
theories/P_Analog.v
theories/Fom.v
theories/Integrators.v
theories/IntegratorsProofs.v
theories/Simulator.v
theories/Stability.v
theories/LinearOde.v
theories/PreSim.v
theories/PreRun.v
theories/SimWitness.v
theories/SynthesisProofs.v
theories/SynthesisExtra.v
theories/LeapFrogPoles.v
theories/P_Synthesis.v
theories/P_Simulator.v
theories/Parallel.v
theories/ParallelProofs.v
theories/P_Parallel.v
theories/Adaptive.v
theories/AdaptiveProofs.v
theories/AdaptiveExtra.v
theories/RlsRun.v
theories/LmsProofs.v
theories/LstsqIir.v
theories/P_Adaptive.v
theories/Ctsd.v
theories/CtsdProofs.v
theories/P_Ctsd.v
theories/Netlist.v
theories/NetlistProofs.v
theories/NetlistTree.v
theories/P_Netlist.v
theories/Circuits.v
theories/CircuitLaws.v
theories/CircuitProofs.v
theories/OpampCircuit.v
theories/OpampCell.v
theories/GmCircuit.v
theories/LcCircuit.v
theories/CircuitNames.v
theories/SourceProofs.v
theories/P_Circuits.v
theories/Observe.v
theories/ObserveProofs.v
theories/P_Observe.v
theories/Modulator.v
theories/ModulatorProofs.v
theories/P_Modulator.v
theories/Peaks.v
theories/PeaksProofs.v
theories/P_Peaks.v
theories/Wiener.v
theories/FilterCoeff.v
theories/FilterCoeffProofs.v
theories/FilterOde.v
theories/FilterBackends.v
theories/FilterRun.v
theories/FilterExample.v
theories/P_Filter.v
theories/TransferFn.v
theories/CplxLin.v
theories/TransferProofs.v
theories/FreqProofs.v
theories/TransferExtra.v
theories/BudgetProofs.v
theories/TransferExample.v
theories/P_Transfer.v
theories/P_Budget.v
theories/Optimal.v
theories/P_Optimal.v
theories/Quadrature.v
theories/QuadratureProofs.v
theories/QuadratureRun.v
theories/QuadratureOsc.v
theories/QuadraturePar.v
theories/QuadraturePoles.v
theories/P_Quadrature.v
theories/LinearExist.v
theories/NuvAlg.v
theories/NuvCost.v
theories/NuvArrival.v
theories/Nuv.v
theories/NuvProofs.v
theories/NuvPass.v
theories/NuvRun.v
theories/NuvBatch.v
theories/NuvCoeff.v
theories/NuvCont.v
theories/NuvCarry.v
theories/NuvTop.v
theories/NuvProtocol.v
theories/NuvWitness.v
theories/P_Nuv.v
theories/GlobalControl.v
theories/GlobalProofs.v
theories/GlobalWitness.v
theories/P_Global.v
theories/Filters.v
theories/FilterZpk.v
theories/FilterResp.v
theories/ChebPoly.v
theories/FilterPoles.v
theories/FilterDesign.v
theories/FilterInv.v
theories/P_Filters.v
theories/CircuitControl.v
theories/XspiceLaws.v
theories/CircuitControlProofs.v
theories/CircuitControlSem.v
theories/CircuitControlTop.v
theories/CircuitControlMain.v
theories/CircuitDither.v
theories/P_CircuitControl.v
theories/SignalsMore.v
theories/SignalsMoreProofs.v
theories/P_SignalsMore.v
theories/ClosedLoop.v
theories/ClosedLoopProofs.v
theories/ClosedLoopMain.v
theories/P_ClosedLoop.v
theories/SpiceSimulator.v
theories/SpiceRun.v
theories/SpiceProofs.v
theories/P_SpiceSimulator.v
theories/Riccati.v
theories/RiccatiAlg.v
theories/RiccatiProofs.v
theories/RiccatiFilter.v
theories/RiccatiDecay.v
theories/RiccatiExample.v
theories/P_Riccati.v
theories/RiccatiBrute.v
theories/P_RiccatiBrute.v
theories/EstimatorDecay.v
theories/P_EstimatorDecay.v
theories/WarmUp.v
theories/WarmUpProofs.v
theories/P_WarmUp.v
theories/Survey.v
theories/SurveyProofs.v
theories/P_Survey.v
theories/ConversionError.v
theories/P_ConversionError.v
theories/ToneResponse.v
theories/P_ToneResponse.v
theories/EndToEnd.v
theories/EndToEndExample.v
theories/P_EndToEnd.v
theories/FirFreq.v
theories/FirFreqProofs.v
theories/P_FirFreq.v
theories/VerilogAms.v
theories/VerilogAmsProofs.v
theories/P_VerilogAms.v
theories/Elements.v
theories/ElementsProofs.v
theories/P_Elements.v
theories/LeapFrogStability.v
theories/LeapFrogWitness.v
theories/P_LeapFrogStability.v
theories/EndToEndLeapFrog.v
theories/P_EndToEndLeapFrog.v
theories/Psd.v
theories/PsdProofs.v
theories/P_Psd.v
theories/PsdNoise.v
theories/P_PsdNoise.v
theories/PsdRms.v
theories/PsdRmsProofs.v
theories/P_PsdRms.v
theories/Decimate.v
theories/DecimateProofs.v
theories/P_Decimate.v
theories/UrlReader.v
theories/P_UrlReader.v
theories/SymbolicOde.v
theories/P_SymbolicOde.v
theories/HoldSignals.v
theories/P_HoldSignals.v
theories/StoredRun.v
theories/P_StoredRun.v
theories/SummerElement.v
theories/P_SummerElement.v
theories/P_Segments.v
