-Q theories Verif
theories/Res.v
theories/VectorModel.v
theories/MatrixModel.v
theories/SquareModel.v
theories/ComplexModel.v
theories/MoebiusModel.v
theories/TransformModel.v
theories/MathModel.v
theories/VFacts.v
theories/Spec.v
theories/SpecRing.v
theories/Instances.v
theories/SpecFacts.v
theories/VecProofs.v
theories/PropVector.v
theories/MFacts.v
theories/MatProofs.v
theories/PropMatrix.v
theories/AlgFacts.v
theories/SpecDet.v
theories/DetFacts.v
theories/SqProofs.v
theories/PropAlgebra.v
theories/PropSquare.v
theories/CxFacts.v
theories/PropComplex.v
theories/MoFacts.v
theories/PropMoebius.v
theories/RealInst.v
theories/RealFacts.v
theories/PropReal.v
theories/PropMoebiusR.v
theories/SpecTransform.v
theories/PropTransform.v
theories/PropToLinear.v
theories/PropAffine.v
theories/PropMoebiusD.v
theories/SpecDir.v
theories/PropDir.v
theories/PropRot.v
theories/PropLookAt.v
theories/FloatInst.v
theories/PropOrder.v
theories/PropFloat.v
theories/RelFacts.v
theories/SpecMachine.v
theories/PropRel.v
theories/SpecDistr.v
theories/PropDistr.v
theories/PropApprox.v
theories/SpecRound.v
theories/FlocqFacts.v
theories/PropRound.v
theories/TraitsModel.v
theories/PropTraits.v
theories/PropFNorm.v
theories/ViewModel.v
theories/PropView.v
theories/NumModel.v
theories/SpecNum.v
theories/PropNum.v
theories/PropParts.v
theories/DropModel.v
theories/PropDrop.v
theories/PropAction.v
theories/PropHyper.v
theories/PropCross.v
theories/FmtModel.v
theories/PropFmt.v
theories/OwnModel.v
theories/PropOwn.v
theories/LayoutModel.v
theories/PropLayout.v
theories/PropDrift.v
theories/PropExact.v
theories/PropBound.v
theories/GaussFacts.v
theories/SpecLaw.v
theories/PropLaw.v
theories/PropIso.v
theories/DeriveModel.v
theories/PropDerive.v
theories/PropExamples.v
theories/PropDetErr.v
theories/WordModel.v
theories/PropWord.v
theories/PropSO3.v
theories/UnitModel.v
theories/PropUnits.v
theories/PropNaN.v
theories/PropEval.v
theories/SpecCount.v
theories/PropCount.v
theories/SpecSafe.v
theories/SafeFacts.v
theories/PropSafe.v
theories/PropLinear.v
theories/SpecRange.v
theories/PropRange.v
theories/SpecFRange.v
theories/PropFRange.v
theories/PropText.v
theories/PropVolume.v
theories/PropSphere.v
theories/SpecScale.v
theories/PropScale.v
theories/PropDim.v
theories/SpecSign.v
theories/PropSign.v
theories/SpecDual.v
theories/PropDual.v
theories/PropRules.v
theories/PropMono.v
theories/SpecBackward.v
theories/PropBackward.v
theories/SpecRank.v
theories/PropRank.v
theories/SpecAffGeo.v
theories/PropAffGeo.v
theories/PropCamera.v
theories/SpecDrift.v
theories/DriftFacts.v
theories/PropTrip.v
theories/SpecPoly.v
theories/PropCayley.v
theories/PropCompose.v
theories/PropCond.v
theories/PropNearest.v
theories/PropReflect.v
theories/PropDefinite.v
theories/PropCholesky.v
theories/PropLU.v
theories/PropSchur.v
