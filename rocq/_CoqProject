-Q theories Verif
theories/Base.v
theories/BaseFacts.v
theories/ScalarModel.v
theories/RInst.v
theories/ScalarProofs.v
theories/HeapModel.v
theories/HeapSpec.v
theories/HeapFacts.v
theories/HeapProofs.v
theories/HeapAssign.v
theories/HeapParts.v
theories/Ownership.v
theories/HeapAlias.v
theories/CrossMove.v
theories/PropHeap.v
theories/PropScalar.v
theories/ZInst.v
theories/MatModel.v
theories/MatSpec.v
theories/MatProofs.v
theories/MatOps.v
theories/PropMat.v
theories/MiscModel.v
theories/MiscSpec.v
theories/MiscProofs.v
theories/PromoteModel.v
theories/PropMisc.v
theories/QuatModel.v
theories/QuatSpec.v
theories/QuatProofs.v
theories/PropQuat.v
theories/QuatExp.v
theories/PropQuatExp.v
theories/RotModel.v
theories/RotSpec.v
theories/RotFacts.v
theories/RotProofs.v
theories/RotQuat.v
theories/PropRotQuat.v
theories/RotAngle.v
theories/PropRotAngle.v
theories/RotEuler.v
theories/PropRotEuler.v
theories/LUModel.v
theories/LUSpec.v
theories/LUFacts.v
theories/LUPlain.v
theories/LUPivot.v
theories/LUDet.v
theories/LUSolve.v
theories/LUDom.v
theories/LUInv.v
theories/PropLU.v
theories/VecModel.v
theories/VecSpec.v
theories/VecProofs.v
theories/VecReal.v
theories/VecNs.v
theories/PropVec.v
theories/XfModel.v
theories/XfSpec.v
theories/XfProofs.v
theories/PropXf.v
theories/PropXfReal.v
theories/GeoModel.v
theories/GeoSpec.v
theories/PropProj.v
theories/PropCoord.v
theories/PropRandom.v
theories/ExtModel.v
theories/PropExt.v
theories/PropSmall.v
theories/MHeapModel.v
theories/MHeapSpec.v
theories/MHeapFacts.v
theories/MHeapSafe.v
theories/MHeapRefine.v
theories/MHeapValues.v
theories/PropMHeap.v
theories/UtilModel.v
theories/PropUtil.v
theories/FloatModel.v
theories/FloatFacts.v
theories/FloatDot.v
theories/ExactProducts.v
theories/FloatExact.v
theories/PropFloat.v
theories/FloatNorm.v
theories/PropFloatNorm.v
theories/FloatScalar.v
theories/PropFloatScalar.v
theories/ExactLU.v
theories/FloatLU.v
theories/PropFloatLU.v
theories/Formula.v
theories/FloatExpr.v
theories/PropFloatForm.v
theories/IntModel.v
theories/PropInt.v
theories/ExtMatModel.v
theories/PropExtMat.v
theories/LUGauss.v
theories/PropInverse.v
theories/ConcModel.v
theories/ConcSpec.v
theories/ConcProofs.v
theories/ConcRefine.v
theories/PropConc.v
theories/MixedModel.v
theories/MixedFacts.v
theories/PropMixed.v
theories/FillModel.v
theories/PropFill.v
theories/FloatRel.v
theories/PropFloatProj.v
theories/AliasModel.v
theories/PropAlias.v
theories/FailModel.v
theories/PropFail.v
theories/FloatRot.v
theories/PropFloatRot.v
theories/LUWsModel.v
theories/PropLUWs.v
theories/MConcModel.v
theories/MConcSpec.v
theories/MConcProofs.v
theories/MConcRefine.v
theories/PropMConc.v
theories/OwnModel.v
theories/OwnSpec.v
theories/OwnProofs.v
theories/PropOwn.v
theories/ConstModel.v
theories/ConstSpec.v
theories/ConstBounds.v
theories/ConstProofs.v
theories/PropConst.v
theories/IntInvSpec.v
theories/IntInvProofs.v
theories/IntAdj.v
theories/IntElim.v
theories/PropIntInv.v
theories/Absorb.v
theories/PropNan.v
theories/PropFloatInv.v
theories/PropFloatEuler.v
theories/PropFloatQuat.v
theories/PropFloatTrip.v
theories/FrameFacts.v
theories/PropFloatFrame.v
theories/PropFloatRigid.v
theories/PropFloatTurn.v
theories/PropFloatCoord.v
theories/PropFloatAim.v
theories/PropFloatPlanes.v
theories/PropFloatAngle.v
theories/PropFloatAxis.v
theories/PropFloatTwo.v
theories/PropFloatRandom.v
theories/PropFloatExp.v
theories/PropFloatDegenerate.v
