-Q theories Verif
theories/Prelude.v
theories/Py.v
theories/NumArr.v
theories/LinAlg.v
theories/Toy.v
theories/M_Misc.v
theories/M_SimRunners.v
theories/P_Misc.v
theories/P_SimRunners.v
theories/Properties_Misc.v
theories/Lsq.v
theories/Sorting.v
theories/M_Gradients.v
theories/P_Gradients.v
theories/P_LocalLinear.v
theories/Properties_Gradients.v
theories/M_RespSurf.v
theories/P_IndexSet.v
theories/P_Poly.v
theories/P_PolyTrain.v
theories/P_PolyFacts.v
theories/GaussPD.v
theories/P_Rbf.v
theories/SolveRef.v
theories/Properties_RespSurf.v
theories/M_Subspaces.v
theories/Spectral.v
theories/P_Subspaces.v
theories/P_Estimators.v
theories/P_Qphd.v
theories/Det.v
theories/SpectralThm.v
theories/EighRef.v
theories/P_Partition.v
theories/P_Bootstrap.v
theories/P_SubsState.v
theories/P_SubsLive.v
theories/Properties_Subspaces.v
theories/Properties_SubsState.v
theories/Tridiag.v
theories/Integral.v
theories/GaussRules.v
theories/M_Quadrature.v
theories/P_Quadrature.v
theories/P_Tensor.v
theories/Properties_Quadrature.v
theories/LPRef.v
theories/M_QP.v
theories/P_QP.v
theories/Properties_QP.v
theories/M_Domains.v
theories/P_Domains.v
theories/P_DomSample.v
theories/Properties_Domains.v
theories/P_DomWitness.v
theories/Properties_DomSample.v
theories/P_Zonotope.v
theories/Properties_Zonotope.v
theories/M_Designs.v
theories/P_Designs.v
theories/P_Multistart.v
theories/Properties_Designs.v
theories/M_ASRS.v
theories/P_ASRS.v
theories/P_Quiet.v
theories/P_CondExp.v
theories/Properties_ASRS.v
theories/P_Inverse.v
theories/Properties_ASTrain.v
theories/M_Integrals.v
theories/P_Integrals.v
theories/Properties_Integrals.v
theories/P_Integrate.v
theories/Properties_Integrate.v
theories/M_Optimizers.v
theories/P_Optimizers.v
theories/Properties_Optimizers.v
theories/Properties_MinMap.v
theories/Properties_Minimize.v
theories/Deriv.v
theories/M_Tutorials.v
theories/P_Tutorials.v
theories/Properties_Tutorials.v
theories/M_Plotters.v
theories/P_Plotters.v
theories/Properties_Plotters.v
theories/Properties_EndToEnd.v
theories/Properties_Arguments.v
theories/Properties_TestFunctions.v
theories/Perturb.v
theories/P_Stability.v
theories/Properties_Stability.v
theories/Properties_Weights.v
theories/Properties_Accuracy.v
theories/Cholesky.v
theories/GaussSPD.v
theories/P_RbfObj.v
theories/Properties_RbfObj.v
theories/Properties_Callbacks.v
theories/PolySub.v
theories/Properties_Ridge.v
theories/Properties_AvDesign.v
theories/JacobiPoly.v
theories/Properties_Recurrence.v
theories/Properties_Shapes.v
theories/Cubature.v
theories/Properties_Cubature.v
theories/GaussPoincare.v
theories/GaussRotate.v
theories/GaussCond.v
theories/Properties_Poincare.v
theories/Properties_Stein.v
theories/Properties_PolyInvariance.v
theories/Properties_ActiveDim.v
theories/Properties_Certificate.v
theories/P_RbfInvariance.v
theories/Properties_RbfInvariance.v
theories/P_Resampling.v
theories/Properties_Resampling.v
theories/Properties_TotalVariance.v
theories/Properties_DimensionRules.v
theories/Properties_Kriging.v
theories/Properties_Nested.v
theories/Properties_ShapesSurf.v
theories/Properties_PlotErrors.v
theories/M_Notebooks.v
theories/P_Notebooks.v
theories/Properties_Notebooks.v
theories/Properties_ComputeLive.v
theories/M_Basic.v
theories/P_Basic.v
theories/Properties_Basic.v
theories/Properties_Samplers.v
theories/M_Float.v
theories/P_Float.v
theories/P_FloatCode.v
theories/Properties_Float.v
theories/M_Tests.v
theories/P_Tests.v
theories/Properties_Tests.v
theories/Properties_TestsMore.v
theories/Properties_TestsDesign.v
theories/Properties_TestsQP.v
theories/Properties_NoPoints.v
theories/M_TestsSpace.v
theories/P_TestsSpace.v
theories/Properties_TestsSpace.v
theories/P_TestsDomain.v
theories/Properties_TestsDomain.v
theories/Properties_HitRun.v
theories/M_TestsSurf.v
theories/P_TestsSurf.v
theories/Properties_TestsSurf.v
theories/M_TestsAS.v
theories/Properties_TestsPlot.v
theories/P_TestsAS.v
theories/P_TestsAS2.v
theories/Properties_TestsAS.v
theories/M_TestsOpt.v
theories/P_TestsOpt.v
theories/P_TestsOpt2.v
theories/P_TestsOpt3.v
theories/P_TestsOpt4.v
theories/Properties_TestsOpt.v
theories/Properties_LocalLinear.v
theories/M_FloatGrad.v
theories/P_FloatGrad.v
theories/Properties_FloatGrad.v
theories/P_FloatSub.v
theories/Properties_FloatSub.v
theories/Properties_FloatChain.v
theories/P_TestsBnd.v
theories/Properties_TestsBnd.v
theories/M_FloatInt.v
theories/P_FloatInt.v
theories/Properties_FloatInt.v
theories/Properties_RbfMoved.v
theories/M_FloatPoly.v
theories/P_FloatPoly.v
theories/Properties_FloatPoly.v
theories/M_FloatRbf.v
theories/Properties_FloatRbf.v
theories/M_FloatRbfGrad.v
theories/Properties_FloatRbfGrad.v
theories/Properties_FloatRbfFar.v
