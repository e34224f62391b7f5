-Q theories Verif
theories/Model/Atan2.v
theories/Model/Base.v
theories/Model/BipBuffer.v
theories/Model/Biquad.v
theories/Model/Cdc.v
theories/Model/Coeffs.v
theories/Model/Complex.v
theories/Model/Const.v
theories/Model/Cordic.v
theories/Model/Delay.v
theories/Model/Demod.v
theories/Model/Deque.v
theories/Model/Ema.v
theories/Model/Exp.v
theories/Model/Fdzp.v
theories/Model/Fft.v
theories/Model/FftCost.v
theories/Model/FirFun.v
theories/Model/Kahan.v
theories/Model/Literals.v
theories/Model/Lms.v
theories/Model/MovExt.v
theories/Model/MovIeee.v
theories/Model/Netpbm.v
theories/Model/Normalize.v
theories/Model/Num.v
theories/Model/Num64.v
theories/Model/NumIeee.v
theories/Model/OSignal.v
theories/Model/Phasor.v
theories/Model/Quick.v
theories/Model/QuickCost.v
theories/Model/Regression.v
theories/Model/Resampler.v
theories/Model/RobustLine.v
theories/Model/Signal.v
theories/Model/Sma.v
theories/Model/Spline.v
theories/Model/Stack.v
theories/Model/Stream.v
theories/Model/StreamCost.v
theories/Model/Swa.v
theories/Model/TestPrograms.v
theories/Model/Trigger.v
theories/Model/UnitCircle.v
theories/Model/Utils.v
theories/Model/Wav.v
theories/Model/WinFun.v
theories/Proofs/AtRound.v
theories/Proofs/Atan2Proofs.v
theories/Proofs/BaseLemmas.v
theories/Proofs/BiquadProofs.v
theories/Proofs/BqBad.v
theories/Proofs/BqRound.v
theories/Proofs/Butterworth.v
theories/Proofs/CdcCoef.v
theories/Proofs/CdcProofs.v
theories/Proofs/CdcRound.v
theories/Proofs/ConstProofs.v
theories/Proofs/ContainerProofs.v
theories/Proofs/Cordic8.v
theories/Proofs/CordicBound.v
theories/Proofs/CordicInt.v
theories/Proofs/CordicProofs.v
theories/Proofs/CordicScan.v
theories/Proofs/CplxRound.v
theories/Proofs/DbRound.v
theories/Proofs/DemodProofs.v
theories/Proofs/EmaProofs.v
theories/Proofs/EmaRound.v
theories/Proofs/EmaSens.v
theories/Proofs/ExpProofs.v
theories/Proofs/ExpRound.v
theories/Proofs/FdzpProofs.v
theories/Proofs/FdzpRound.v
theories/Proofs/FftAlg.v
theories/Proofs/FftConv.v
theories/Proofs/FftCostProofs.v
theories/Proofs/FftGen.v
theories/Proofs/FftInverse.v
theories/Proofs/FftKernels.v
theories/Proofs/FftL2.v
theories/Proofs/FftProofs.v
theories/Proofs/FftReal.v
theories/Proofs/FftRound.v
theories/Proofs/FftSplit.v
theories/Proofs/FirProofs.v
theories/Proofs/FmRound.v
theories/Proofs/HermiteProofs.v
theories/Proofs/HilbertFreq.v
theories/Proofs/HilbertRound.v
theories/Proofs/IeeeFft.v
theories/Proofs/IeeeFilt.v
theories/Proofs/IeeeFun.v
theories/Proofs/IeeeProofs.v
theories/Proofs/IeeeStay.v
theories/Proofs/IirRound.v
theories/Proofs/IntegRound.v
theories/Proofs/KahanFloat.v
theories/Proofs/KaiserRound.v
theories/Proofs/LitRound.v
theories/Proofs/LitTable.v
theories/Proofs/LmsConv.v
theories/Proofs/LmsOver.v
theories/Proofs/LmsOverC.v
theories/Proofs/LmsProofs.v
theories/Proofs/MovExtProofs.v
theories/Proofs/MovIeeeProofs.v
theories/Proofs/MovNan.v
theories/Proofs/NanProofs.v
theories/Proofs/Param.v
theories/Proofs/ParamFilt.v
theories/Proofs/PhasorProofs.v
theories/Proofs/PhasorRound.v
theories/Proofs/Piecewise.v
theories/Proofs/PnmCurve.v
theories/Proofs/PnmParse.v
theories/Proofs/PnmPixels.v
theories/Proofs/QuickCostProofs.v
theories/Proofs/QuickProofs.v
theories/Proofs/QuickWorst.v
theories/Proofs/RegrRound.v
theories/Proofs/RegressionProofs.v
theories/Proofs/Resampler2Proofs.v
theories/Proofs/ResamplerProofs.v
theories/Proofs/RestLemmas.v
theories/Proofs/RestProofs.v
theories/Proofs/RhctIeee.v
theories/Proofs/RhctRound.v
theories/Proofs/RobustEquiv.v
theories/Proofs/RobustFitProofs.v
theories/Proofs/RobustLineProofs.v
theories/Proofs/Rs2Round.v
theories/Proofs/SecondOrder.v
theories/Proofs/ShiftProofs.v
theories/Proofs/SignalLemmas.v
theories/Proofs/SmaProofs.v
theories/Proofs/SmaRound.v
theories/Proofs/SplineErr.v
theories/Proofs/SplineHom.v
theories/Proofs/SplineMin.v
theories/Proofs/SplineProofs.v
theories/Proofs/SplineSafe.v
theories/Proofs/SplineSpec.v
theories/Proofs/StreamCostProofs.v
theories/Proofs/SwaProofs.v
theories/Proofs/TestProofs.v
theories/Proofs/TestRound.v
theories/Proofs/UcRound.v
theories/Proofs/UcUnit.v
theories/Proofs/UnitCircleProofs.v
theories/Proofs/WavHeader.v
theories/Proofs/WavInst.v
theories/Proofs/WavProofs.v
theories/Proofs/WavRead.v
theories/Proofs/WinProofs.v
theories/Proofs/WindowInst.v
theories/Props/PAtRound.v
theories/Props/PAtan2.v
theories/Props/PBiquad.v
theories/Props/PBqRound.v
theories/Props/PCdc.v
theories/Props/PCdcNew.v
theories/Props/PCdcRound.v
theories/Props/PContainers.v
theories/Props/PCordic.v
theories/Props/PCost.v
theories/Props/PCplxRound.v
theories/Props/PDbRound.v
theories/Props/PDemod.v
theories/Props/PEmaCascade.v
theories/Props/PEmaRound.v
theories/Props/PExp.v
theories/Props/PFdzp.v
theories/Props/PFdzpRound.v
theories/Props/PFft.v
theories/Props/PFftConv.v
theories/Props/PFftL2.v
theories/Props/PFftRound.v
theories/Props/PFir.v
theories/Props/PFmRound.v
theories/Props/PFresh.v
theories/Props/PHilbert.v
theories/Props/PHilbertRound.v
theories/Props/PIeee.v
theories/Props/PIeeeFft.v
theories/Props/PIeeeFilt.v
theories/Props/PIeeeRhct.v
theories/Props/PIirRound.v
theories/Props/PKaiserRound.v
theories/Props/PLits.v
theories/Props/PLms.v
theories/Props/PLmsConv.v
theories/Props/PLmsOver.v
theories/Props/PNan.v
theories/Props/PPhasorRound.v
theories/Props/PPnm.v
theories/Props/PQuick.v
theories/Props/PQuickCost.v
theories/Props/PRecursive.v
theories/Props/PRegrRound.v
theories/Props/PRegression.v
theories/Props/PResKernel.v
theories/Props/PResampler.v
theories/Props/PRest.v
theories/Props/PRobustLine.v
theories/Props/PRobustSym.v
theories/Props/PRs2Round.v
theories/Props/PSmaRound.v
theories/Props/PSpline.v
theories/Props/PSplineErr.v
theories/Props/PSplineMin.v
theories/Props/PTests.v
theories/Props/PUnitCircle.v
theories/Props/PWav.v
theories/Props/PWinFun.v
theories/Props/PWindow.v
theories/Spec/Angle.v
theories/Spec/Bessel.v
theories/Spec/Containers.v
theories/Spec/Conv.v
theories/Spec/Dft.v
theories/Spec/ExactConst.v
theories/Spec/Fir.v
theories/Spec/Iir.v
theories/Spec/Interp.v
theories/Spec/LeastSquares.v
theories/Spec/NonFinite.v
theories/Spec/Norm.v
theories/Spec/Overflow.v
theories/Spec/Pnm.v
theories/Spec/Reduce.v
theories/Spec/Resample.v
theories/Spec/Rest.v
theories/Spec/RobustFit.v
theories/Spec/Rounding.v
theories/Spec/Sorting.v
theories/Spec/Sums.v
theories/Spec/Wav.v
theories/Spec/WavHeader.v
theories/Spec/Window.v
