-Q theories Verif
theories/Model/Base.v
theories/Model/Util.v
theories/Model/Ravel.v
theories/Model/Roots.v
theories/Proofs/BaseFacts.v
theories/Spec/SUtil.v
theories/Proofs/UtilFacts.v
theories/Props/PUtil.v
theories/Spec/SRoots.v
theories/Proofs/RootsFacts.v
theories/Proofs/RootsDiscr.v
theories/Proofs/RootsCont.v
theories/Model/IEEE.v
theories/Proofs/IEEEFacts.v
theories/Proofs/RootsIEEE.v
theories/Proofs/RescaleIEEE.v
theories/Proofs/RootsExtr.v
theories/Proofs/RootsExamples.v
theories/Props/PRoots.v
theories/Model/Matsubara.v
theories/Spec/SMatsubara.v
theories/Proofs/MatsubaraFacts.v
theories/Proofs/DefaultMatsubara.v
theories/Proofs/MatsubaraExamples.v
theories/Props/PMatsubara.v
theories/Model/Num.v
theories/Proofs/SumFacts.v
theories/Proofs/IntFacts.v
theories/Proofs/LegFacts.v
theories/Model/Gauss.v
theories/Model/Kronrod.v
theories/Spec/SGauss.v
theories/Proofs/PolyFacts.v
theories/Proofs/GaussFacts.v
theories/Proofs/GaussExact.v
theories/Proofs/GaussExamples.v
theories/Proofs/LegRoots.v
theories/Proofs/NewtonExact.v
theories/Props/PGauss.v
theories/Proofs/KronrodFacts.v
theories/Model/Poly.v
theories/Spec/SPoly.v
theories/Proofs/PPolyFacts.v
theories/Proofs/PPolyInt.v
theories/Proofs/PPolyExamples.v
theories/Props/PPoly.v
theories/Model/FT.v
theories/Model/FTIEEE.v
theories/Spec/SFT.v
theories/Spec/SFTIEEE.v
theories/Proofs/FTFacts.v
theories/Proofs/FTModel.v
theories/Proofs/FTCall.v
theories/Proofs/FTProps.v
theories/Props/PFT.v
theories/Props/POverlap.v
theories/Model/Defaults.v
theories/Model/Decomp.v
theories/Spec/SDecomp.v
theories/Proofs/DecompFacts.v
theories/Proofs/DecompSplit.v
theories/Proofs/DecompExamples.v
theories/Spec/SDefaults.v
theories/Proofs/DefaultsFacts.v
theories/Proofs/DefaultsProps.v
theories/Proofs/DefaultsSampling.v
theories/Proofs/DefaultsSet.v
theories/Props/PDefaults.v
theories/Proofs/HintFacts.v
theories/Props/PHints.v
theories/Props/PDecomp.v
theories/Props/PSVE.v
theories/Props/PBasis.v
theories/Model/Overlap.v
theories/Model/SVE.v
theories/Spec/SSVE.v
theories/Proofs/OverlapTiles.v
theories/Proofs/OverlapFacts.v
theories/Proofs/OverlapMore.v
theories/Proofs/OverlapAccuracy.v
theories/Proofs/OverlapProps.v
theories/Proofs/OverlapCase.v
theories/Proofs/SVEFacts.v
theories/Model/Basis.v
theories/Spec/SBasis.v
theories/Proofs/BasisFacts.v
theories/Proofs/BasisInit.v
theories/Proofs/BasisProps.v
theories/Proofs/BasisOps.v
theories/Proofs/BasisPhys.v
theories/Proofs/BasisPoints.v
theories/Proofs/SVEPolicy.v
theories/Model/Kernel.v
theories/Spec/SKernel.v
theories/Proofs/KernelFacts.v
theories/Proofs/KernelProps.v
theories/Proofs/KernelSegs.v
theories/Proofs/BasisKernel.v
theories/Props/PKernel.v
theories/Model/Augment.v
theories/Spec/SAugment.v
theories/Proofs/AugmentFacts.v
theories/Proofs/AugmentProps.v
theories/Props/PAugment.v
theories/Props/PSampling.v
theories/Props/PDLR.v
theories/Props/PAdapter.v
theories/Props/PRescale.v
theories/Model/NDArray.v
theories/Model/Sampling.v
theories/Spec/SSampling.v
theories/Spec/SDLR.v
theories/Spec/SAdapter.v
theories/Proofs/NDFacts.v
theories/Proofs/LstsqFacts.v
theories/Proofs/SamplingFacts.v
theories/Proofs/SplitFacts.v
theories/Model/DLR.v
theories/Model/Adapter.v
theories/Model/Compute.v
theories/Spec/SOverlap.v
theories/Spec/SCompute.v
theories/Spec/SSingular.v
theories/Proofs/ComputeNodes.v
theories/Proofs/ComputePost.v
theories/Proofs/ComputeSampling.v
theories/Proofs/ComputeMerge.v
theories/Proofs/ComputeMerged.v
theories/Proofs/ComputeError.v
theories/Proofs/ComputeFull.v
theories/Proofs/SingularEq.v
theories/Proofs/SingularCompute.v
theories/Proofs/EckartYoung.v
theories/Proofs/BestCuts.v
theories/Proofs/ComputeNonempty.v
theories/Proofs/ComputeDefined.v
theories/Proofs/ComputeExamples.v
theories/Proofs/ComputeCase.v
theories/Proofs/ComputeWhole.v
theories/Proofs/ComputeTheorems.v
theories/Props/PCompute.v
theories/Props/PComputeFull.v
theories/Proofs/SingularCase.v
theories/Props/PSingular.v
theories/Proofs/SamplingProps.v
theories/Proofs/PointwiseFacts.v
theories/Proofs/RecoverFacts.v
theories/Proofs/PointsFacts.v
theories/Proofs/DLRFacts.v
theories/Proofs/DLRProps.v
theories/Proofs/PointwiseMore.v
theories/Proofs/SamplingClaims.v
theories/Proofs/SamplingExamples.v
theories/Proofs/DLRClaims.v
theories/Proofs/AdapterFacts.v
theories/Proofs/AdapterRoots.v
theories/Proofs/AdapterProps.v
theories/Spec/STransform.v
theories/Proofs/TransformFacts.v
theories/Proofs/TransformBases.v
theories/Proofs/TransformExamples.v
theories/Props/PTransform.v
theories/Model/Whole.v
theories/Spec/SWhole.v
theories/Spec/SNear.v
theories/Proofs/WholeFacts.v
theories/Proofs/WholeBasis.v
theories/Proofs/WholeCase.v
theories/Proofs/BoxMax.v
theories/Proofs/SvdExists.v
theories/Proofs/SvdRun.v
theories/Props/PWhole.v
theories/Proofs/NearBest.v
theories/Props/PNear.v
theories/Model/Link.v
theories/Spec/SLink.v
theories/Proofs/LinkFacts.v
theories/Props/PLink.v
theories/Model/KernelIEEE.v
theories/Spec/SKernelIEEE.v
theories/Proofs/KernelRound.v
theories/Proofs/KernelRoundOdd.v
theories/Proofs/KernelRoundCall.v
theories/Props/PKernelIEEE.v
theories/Model/GaussIEEE.v
theories/Model/PolyIEEE.v
theories/Model/SamplingIEEE.v
theories/Model/Access.v
theories/Model/SVEIEEE.v
theories/Spec/SGaussIEEE.v
theories/Spec/SRounded.v
theories/Spec/SComputed.v
theories/Proofs/GaussRound.v
theories/Proofs/GaussRoundRule.v
theories/Proofs/MatrixRound.v
theories/Proofs/MatrixRoundMore.v
theories/Proofs/SegmentGaps.v
theories/Proofs/RoundedSVE.v
theories/Proofs/RoundedCase.v
theories/Proofs/Polar.v
theories/Proofs/Selected.v
theories/Proofs/ComputedSVD.v
theories/Proofs/ComputedBasis.v
theories/Proofs/ComputedCase.v
theories/Props/PGaussIEEE.v
theories/Props/PRounded.v
theories/Props/PComputed.v
theories/Spec/SPolyIEEE.v
theories/Spec/SSamplingIEEE.v
theories/Spec/SAccess.v
theories/Spec/SSVEIEEE.v
theories/Proofs/Clenshaw.v
theories/Proofs/PolyRound.v
theories/Proofs/CVec.v
theories/Proofs/FitRound.v
theories/Proofs/NDRel.v
theories/Proofs/SamplingRound.v
theories/Proofs/DotRound.v
theories/Proofs/SamplingRoundProps.v
theories/Proofs/SamplingRoundExamples.v
theories/Proofs/BesselBounds.v
theories/Proofs/FTRound.v
theories/Proofs/FTRoundSum.v
theories/Proofs/FTRoundProps.v
theories/Props/PFTIEEE.v
theories/Props/PPolyIEEE.v
theories/Props/PSamplingIEEE.v
theories/Proofs/AccessFacts.v
theories/Proofs/LegRecur.v
theories/Proofs/CoefRound.v
theories/Proofs/CoefSegment.v
theories/Proofs/CoefExact.v
theories/Proofs/CoefFun.v
theories/Props/PAccess.v
theories/Props/PSVEIEEE.v
theories/Spec/SRoundedCompute.v
theories/Proofs/Perturb.v
theories/Proofs/NodesCore.v
theories/Proofs/RoundVectors.v
theories/Proofs/PerturbedBlock.v
theories/Proofs/CarriedBlock.v
theories/Proofs/PostRound.v
theories/Proofs/ComputeRound.v
theories/Proofs/HalvedBlock.v
theories/Proofs/ComputeRoundSymm.v
theories/Proofs/RoundedReturns.v
theories/Proofs/RoundedComputeCase.v
theories/Props/PRoundedCompute.v
theories/Model/BasisIEEE.v
theories/Spec/SBasisIEEE.v
theories/Proofs/BasisRoundPiece.v
theories/Proofs/BasisRoundGeom.v
theories/Proofs/BasisRound.v
theories/Proofs/BasisRoundProps.v
theories/Proofs/BasisRoundMore.v
theories/Proofs/BasisRoundDouble.v
theories/Props/PBasisIEEE.v
theories/Model/WholeIEEE.v
theories/Spec/SWholeIEEE.v
theories/Proofs/WholeRoundExp.v
theories/Proofs/WholeRound.v
theories/Proofs/WholeRoundBasis.v
theories/Proofs/WholeRoundNear.v
theories/Proofs/WholeRoundCase.v
theories/Props/PWholeIEEE.v
theories/Model/TransformIEEE.v
theories/Spec/STransformIEEE.v
theories/Proofs/Bessel.v
theories/Proofs/TransformRound.v
theories/Proofs/TransformRoundProps.v
theories/Proofs/TransformRoundCase.v
theories/Props/PTransformIEEE.v
theories/Model/OpsIEEE.v
theories/Spec/SOpsIEEE.v
theories/Proofs/OpsRound.v
theories/Proofs/OpsRoundMore.v
theories/Props/POpsIEEE.v
theories/Model/DefaultsIEEE.v
theories/Spec/SDefaultsIEEE.v
theories/Proofs/DefaultsRound.v
theories/Proofs/DefaultsRoots.v
theories/Proofs/DefaultsTau.v
theories/Proofs/DefaultsDeriv.v
theories/Proofs/DefaultsMore.v
theories/Proofs/DefaultsCase.v
theories/Props/PDefaultsIEEE.v
theories/Model/MatsubaraIEEE.v
theories/Spec/SMatsubaraIEEE.v
theories/Proofs/MatsRound.v
theories/Proofs/MatsRoundBasis.v
theories/Proofs/MatsRoundProps.v
theories/Proofs/MatsRoundExact.v
theories/Proofs/MatsRoundCase.v
theories/Props/PMatsubaraIEEE.v
theories/Model/TailIEEE.v
theories/Spec/STailIEEE.v
theories/Proofs/TailGiw.v
theories/Proofs/TailCoef.v
theories/Proofs/TailProps.v
theories/Proofs/TailMore.v
theories/Proofs/TailCase.v
theories/Props/PTailIEEE.v
theories/Model/DLRIEEE.v
theories/Spec/SDLRIEEE.v
theories/Proofs/DLRRound.v
theories/Proofs/DLRRoundFreq.v
theories/Proofs/DLRRoundTime.v
theories/Proofs/DLRRoundProps.v
theories/Proofs/DLRRoundLoss.v
theories/Proofs/DLRRoundExamples.v
theories/Props/PDLRIEEE.v
theories/Model/AugmentIEEE.v
theories/Spec/SAugmentIEEE.v
theories/Proofs/AugmentRound.v
theories/Proofs/AugmentRoundProps.v
theories/Proofs/AugmentRoundExamples.v
theories/Props/PAugmentIEEE.v
theories/Model/OverlapIEEE.v
theories/Spec/SOverlapIEEE.v
theories/Proofs/OverlapRound.v
theories/Proofs/OverlapRoundLoop.v
theories/Proofs/OverlapRoundProps.v
theories/Proofs/OverlapRoundCase.v
theories/Props/POverlapIEEE.v
