-Q theories Verif
theories/Base.v
theories/Scalar.v
theories/HMap.v
theories/NdArray.v
theories/Features.v
theories/Coeffs.v
theories/Kernels.v
theories/TileCoding.v
theories/Basis.v
theories/Optim.v
theories/Lfa.v
theories/Spec.v
theories/HMapFacts.v
theories/VecFacts.v
theories/FeatureFacts.v
theories/ScalarR.v
theories/ScalarF64.v
theories/FeatureMore.v
theories/F64Facts.v
theories/CoeffFacts.v
theories/CoeffSort.v
theories/Matern.v
theories/BasisReal.v
theories/BasisFacts.v
theories/TileFacts.v
theories/NormReal.v
theories/NormF64.v
theories/ErrorFacts.v
theories/FeatureLast.v
theories/PropFeatures.v
theories/NormL2F64.v
theories/PropBasis.v
theories/OptimSpec.v
theories/OptimFacts.v
theories/OptimReal.v
theories/OptimAdam.v
theories/OptimRepr.v
theories/PropOptim.v
theories/LfaSpec.v
theories/LfaFacts.v
theories/LfaReal.v
theories/SumOrder.v
theories/FeatureF64.v
theories/PropLfa.v
theories/Serde.v
theories/SerdeFacts.v
theories/PropSerde.v
theories/EndToEnd.v
theories/OptimOrder.v
theories/OptimMisfit.v
theories/TileGen.v
theories/LfaRegret.v
theories/PropSystem.v
theories/SpaceFacts.v
theories/SpaceF64.v
theories/NonnegF64.v
theories/BoundF64.v
theories/OptimF64.v
theories/PropMore.v
theories/Machine.v
theories/MachineFacts.v
theories/PropMachine.v
theories/Unwind.v
theories/UnwindFacts.v
theories/UnwindMore.v
theories/PropUnwind.v
theories/Layout.v
theories/LayoutFacts.v
theories/PropLayout.v
theories/DocExample.v
theories/PropDoc.v
theories/Replay.v
theories/ExpBounds.v
theories/ReplayFacts.v
theories/ReplayLibm.v
theories/PropReplay.v
theories/Ifdd.v
theories/IfddFacts.v
theories/IfddMore.v
theories/PropIfdd.v
theories/KernelPsd.v
theories/KernelRadial.v
theories/KernelGram.v
theories/PropKernel.v
theories/Locality.v
theories/LocalityMore.v
theories/PropLocal.v
theories/TableF64.v
theories/PropTable.v
theories/Passes.v
theories/PropPasses.v
theories/HeavyBall.v
theories/AdagradFit.v
theories/AdamFit.v
theories/PropFit.v
theories/KernelStrict.v
theories/KernelFit.v
theories/PropInterp.v
theories/ZeroSign.v
theories/DerivedEq.v
theories/ZeroBasis.v
theories/ZeroRun.v
theories/PropEqual.v
theories/SgdF64.v
theories/SgdRun64.v
theories/SgdFinite64.v
theories/PropTrain64.v
theories/Derive.v
theories/DeriveFacts.v
theories/DeriveBasis.v
theories/PropDerive.v
theories/Axes.v
theories/AxesFacts.v
theories/PropAxes.v
theories/Cycle.v
theories/PropCycle.v
theories/Outputs.v
theories/OutputFit.v
theories/PropOutputs.v
theories/IsgdF64.v
theories/IsgdRun64.v
theories/PropIsgd64.v
theories/AdagradRegret.v
theories/PropAdagrad.v
theories/PropVector64.v
theories/Near64.v
theories/Basis64.v
theories/PropBasis64.v
theories/Kernel64.v
theories/Kernel64Err.v
theories/Kernel64Fit.v
theories/PropKernel64.v
theories/Span.v
theories/SpanBasis.v
theories/PropSpan.v
theories/Momentum64.v
theories/PropMomentum64.v
theories/Doc64.v
theories/PropDoc64.v
theories/Pull.v
theories/PropPull.v
theories/NormAcc64.v
theories/PropNorm64.v
theories/AdamMove.v
theories/PropMove.v
theories/Gram.v
theories/PropGram.v
theories/Drift.v
theories/PropDrift.v
theories/Poison.v
theories/PropPoison.v
theories/SampleOrder.v
theories/PropOrder.v
