-Q theories Verif
theories/Base.v
theories/Vec.v
theories/Angle.v
theories/RotModel.v
theories/Spec.v
theories/RotProofs.v
theories/SeqProofs.v
theories/RotRefute.v
theories/PropRotation.v
theories/TreeModel.v
theories/TreeSpec.v
theories/TreeProofs.v
theories/TreeWeights.v
theories/TreeReduce.v
theories/TreeGeom.v
theories/TreeCases.v
theories/TreeIndep.v
theories/TreeExample.v
theories/PropTree.v
theories/Pow.v
theories/WeightModel.v
theories/WeightProofs.v
theories/PropWeights.v
theories/AvoidModel.v
theories/PropAvoid.v
theories/ProjModel.v
theories/PropProject.v
theories/TangentProofs.v
theories/PropTangent.v
theories/PropContact.v
theories/ContainerModel.v
theories/ContainerProofs.v
theories/PropContainer.v
theories/DynModel.v
theories/PropDynamics.v
theories/PropCircular.v
theories/GraphModel.v
theories/PropGraph.v
theories/KMeansModel.v
theories/KMeansProofs.v
theories/PropKMeans.v
theories/ConvModel.v
theories/ConvProofs.v
theories/PropConverge.v
theories/PropConvSeq.v
theories/PropEvaluate.v
theories/FoldModel.v
theories/FoldProofs.v
theories/PropFold.v
theories/PropInfluence.v
theories/RotAvoidModel.v
theories/RotAvoidProofs.v
theories/PropSmooth.v
theories/SummingProofs.v
theories/PropOpposite.v
theories/PropAround.v
theories/PropBefore.v
theories/PropAvoidSeq.v
theories/PropRadius.v
theories/FieldModel.v
theories/PropLocalRot.v
theories/PropSpiral.v
theories/PropDeviation.v
theories/PropRegress.v
theories/SingularModel.v
theories/FreeConvModel.v
theories/ElementModel.v
theories/ContProofs.v
theories/PropSingular.v
theories/PropAroundObs.v
theories/PropSingSeq.v
theories/HullModel.v
theories/HullProofs.v
theories/PropHull.v
theories/PropHullRoute.v
theories/PropHullCases.v
theories/PropHullMore.v
theories/GmmModel.v
theories/PropGmm.v
theories/PropGmmData.v
theories/KLearnModel.v
theories/PropKLearn.v
theories/PropKOutside.v
theories/HullGraphModel.v
theories/PropHullGraph.v
theories/PropWalls.v
theories/ShapeModel.v
theories/PropArch.v
theories/PropEllipse.v
theories/PropRotContainer.v
theories/GmmObstacleModel.v
theories/PropGmmGraph.v
theories/PropGmmGamma.v
theories/PropGmmNormal.v
theories/EvalModel.v
theories/PropEval.v
theories/PathModel.v
theories/DescentModel.v
theories/PropPath.v
theories/PropDescent.v
theories/KObsModel.v
theories/PropKNormal.v
theories/BodyModel.v
theories/PropBody.v
theories/SwingModel.v
theories/EndModel.v
theories/PropSwing.v
theories/PropEnd.v
theories/OldModel.v
theories/PropOld.v
theories/CondModel.v
theories/WallModel.v
theories/PropKMean.v
theories/PropCond.v
theories/PropWall.v
theories/FitModel.v
theories/PropFit.v
theories/LocalFitModel.v
theories/PropLocalFit.v
theories/PropSpread.v
theories/PropFreeConv.v
theories/PropElement.v
theories/PropFrame.v
theories/PropContinuity.v
theories/PropEmbed.v
theories/PropJoint.v
theories/PropOrder.v
theories/PropSimilar.v
theories/PropMoved.v
theories/ItemModel.v
theories/PropItems.v
theories/PropLimits.v
theories/PropSteady.v
theories/PropFade.v
theories/PropPace.v
theories/PropDying.v
theories/PropMixed.v
theories/PropFlow.v
theories/PropBalls.v
theories/PropTouch.v
theories/PropAhead.v
theories/PropMoves.v
theories/PropGoal.v
