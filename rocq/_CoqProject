-Q theories Verif
theories/Arith.v
theories/Base.v
theories/BigIntCatch.v
theories/BigIntCompoundModel.v
theories/BigIntCompoundUnwindModel.v
theories/BigIntCompoundUnwindProofs.v
theories/BigIntConv.v
theories/BigIntExprModel.v
theories/BigIntHist.v
theories/BigIntI128.v
theories/BigIntModel.v
theories/BigIntMore.v
theories/BigIntOps.v
theories/BigIntOrder.v
theories/BigIntProofs.v
theories/BigIntRun.v
theories/BigIntSafe.v
theories/BigIntSpec.v
theories/BigIntText.v
theories/BigIntUnwindModel.v
theories/BigIntUnwindProofs.v
theories/BigIntUnwindSpec.v
theories/BitDivMod.v
theories/BitSliceModel.v
theories/BitSliceProofs.v
theories/BitwiseModel.v
theories/BitwiseProofs.v
theories/BufProgModel.v
theories/CodegenModel.v
theories/CompoundEqModel.v
theories/CompoundIntModel.v
theories/CompoundIntSpec.v
theories/CompoundRows.v
theories/CompoundsSpec.v
theories/ConcArithModel.v
theories/ConcArithProofs.v
theories/ConcArithSame.v
theories/ConcArithWp.v
theories/ConcBigIntModel.v
theories/ConcInternModel.v
theories/ConcInternMore.v
theories/ConcInternProofs.v
theories/ConcInternSpec.v
theories/ConcListModel.v
theories/ConcListProofs.v
theories/ConcListSolo.v
theories/ConcListSpec.v
theories/DetProofs.v
theories/DivExact.v
theories/DivSpec.v
theories/ElemAddSub.v
theories/ElemDivLow.v
theories/ElemDivMod.v
theories/ElemMul.v
theories/ElemMulFlag.v
theories/ElemShift.v
theories/ElementModel.v
theories/FixedBigModel.v
theories/FixedBigProofs.v
theories/FixedCompoundModel.v
theories/FixedExprModel.v
theories/FixedIModel.v
theories/FixedModel.v
theories/FixedTextModel.v
theories/FixedUModel.v
theories/FloatModel.v
theories/FloatProofs.v
theories/FloatSpec.v
theories/FmtModel.v
theories/FpFlocq.v
theories/FpModel.v
theories/FpProofs.v
theories/FpRoundProofs.v
theories/FpSpec.v
theories/GaussFloat.v
theories/GaussFloatProofs.v
theories/GaussFloatSpec.v
theories/GaussProofs.v
theories/IModel.v
theories/IProofs.v
theories/IeeeDistModel.v
theories/IeeeModel.v
theories/IeeeModulus.v
theories/IeeeMore.v
theories/IeeeMore2.v
theories/IeeeProofs.v
theories/IeeeSpec.v
theories/InternCallModel.v
theories/InternCallProofs.v
theories/InternCallSpec.v
theories/InternCapModel.v
theories/InternHist.v
theories/InternModel.v
theories/InternProofs.v
theories/InternSpec.v
theories/LawSpec.v
theories/LimbExprModel.v
theories/ListPanicModel.v
theories/MatrixModel.v
theories/MatrixProofs.v
theories/ModelTests.v
theories/PositModel.v
theories/PrimModel.v
theories/PrimProofs.v
theories/PropApproxFlocq.v
theories/PropBigInt.v
theories/PropBigInt2.v
theories/PropBigInt3.v
theories/PropBigInt4.v
theories/PropBigIntCompound.v
theories/PropBigIntCompoundUnwind.v
theories/PropBigIntExpr.v
theories/PropBigIntLaws.v
theories/PropBigIntUnwind.v
theories/PropBits.v
theories/PropBits2.v
theories/PropBufProg.v
theories/PropCapacity.v
theories/PropCodegen.v
theories/PropCompoundEq.v
theories/PropCompoundInt.v
theories/PropConc.v
theories/PropConcArith.v
theories/PropConcBigInt.v
theories/PropDiv.v
theories/PropDivElem.v
theories/PropDivExact.v
theories/PropDivLeading.v
theories/PropDivisors.v
theories/PropFixedBig.v
theories/PropFixedCompound.v
theories/PropFixedExpr.v
theories/PropFixedI.v
theories/PropFixedLaws.v
theories/PropFixedProducts.v
theories/PropFixedText.v
theories/PropFixedU.v
theories/PropFloat.v
theories/PropFloat2.v
theories/PropFloatFlocq.v
theories/PropFmt.v
theories/PropI.v
theories/PropI2.v
theories/PropIDiv.v
theories/PropIeee.v
theories/PropIeee2.v
theories/PropIeeeDist.v
theories/PropIeeeGauss.v
theories/PropIeeeModulus.v
theories/PropIndex.v
theories/PropIndex2.v
theories/PropIntCompoundLaws.v
theories/PropIntern.v
theories/PropIntern2.v
theories/PropInternCall.v
theories/PropInternOverlap.v
theories/PropInternProgress.v
theories/PropInternSize.v
theories/PropLimbExpr.v
theories/PropListDrop.v
theories/PropListPanic.v
theories/PropListSteps.v
theories/PropMatrix.v
theories/PropMulFlag.v
theories/PropNested.v
theories/PropPrim.v
theories/PropRatCompound.v
theories/PropRatExpr.v
theories/PropRatLaws.v
theories/PropRealOps.v
theories/PropReals.v
theories/PropReals2.v
theories/PropReals3.v
theories/PropReals4.v
theories/PropReals5.v
theories/PropShapes.v
theories/PropSmallBigInt.v
theories/PropStatic.v
theories/PropStaticDrop.v
theories/PropTextRand.v
theories/PropU.v
theories/PropUCompound.v
theories/PropUCompoundLaws.v
theories/PropUExpr.v
theories/PropUI.v
theories/PropUILaws.v
theories/PropUIdent.v
theories/PropUProduct.v
theories/PropUProductExact.v
theories/PropVecAssign.v
theories/PropVector.v
theories/PropVector2.v
theories/PropWeak.v
theories/PropWeakArith.v
theories/PropWeakCount.v
theories/PropWeakData.v
theories/PropWeakIntern.v
theories/PropWeakRead.v
theories/PropWeakSteps.v
theories/RatCompoundModel.v
theories/RatExprModel.v
theories/RatModel.v
theories/RatProofs.v
theories/RealOpsModel.v
theories/RealOpsProofs.v
theories/RealProofs.v
theories/RealSpec.v
theories/Spec.v
theories/StaticDropModel.v
theories/StaticDropProofs.v
theories/StaticDropSpec.v
theories/StaticIterModel.v
theories/StaticIterProofs.v
theories/StaticIterSpec.v
theories/TextRandModel.v
theories/TextSpec.v
theories/UCompoundModel.v
theories/UExprModel.v
theories/UModel.v
theories/UProofs.v
theories/VecAssignModel.v
theories/VectorModel.v
theories/VectorProofs.v
theories/WeakArithFinish.v
theories/WeakArithModel.v
theories/WeakArithProofs.v
theories/WeakChunkModel.v
theories/WeakChunkProofs.v
theories/WeakCountProofs.v
theories/WeakDataModel.v
theories/WeakDataProofs.v
theories/WeakDataSpec.v
theories/WeakInternModel.v
theories/WeakInternProofs.v
theories/WeakInternSpec.v
theories/WeakListModel.v
theories/WeakListProofs.v
theories/WeakListSpec.v
theories/WeakReadModel.v
theories/WeakReadProofs.v
theories/WeakReadSpec.v
theories/WeakReadWp.v
theories/WeakTurnProofs.v
theories/WeakTurnSpec.v
theories/Words.v
