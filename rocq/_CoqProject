-Q theories Verif
theories/Arith.v
theories/Common.v
theories/Stiff.v
theories/RK.v
theories/RKGen.v
theories/RKHist.v
theories/RKCalls.v
theories/SpecRK.v
theories/RKSpecProofs.v
theories/RKNonInt.v
theories/RX.v
theories/HStart.v
theories/RKInit.v
theories/Tableaux.v
theories/Classes.v
theories/QX.v
theories/RKReal.v
theories/HStartReal.v
theories/RKInitReal.v
theories/RKStep.v
theories/RKBuilt.v
theories/RKTimes.v
theories/RKMore.v
theories/RKMirror.v
theories/RKTop.v
theories/RKEx.v
theories/RKRefute.v
theories/NormReal.v
theories/Prop_Tol.v
theories/Prop_RK.v
theories/Series.v
theories/Trees.v
theories/OrderThm.v
theories/OrderCheck.v
theories/OrderRK.v
theories/OrderRKN.v
theories/OrderModel.v
theories/GOrder.v
theories/GDense.v
theories/Balls.v
theories/BallTab.v
theories/NearPair.v
theories/Prop_Near.v
theories/UOrder.v
theories/UOrder2.v
theories/GlobalRK.v
theories/GlobalPoly.v
theories/GlobalRun.v
theories/Prop_Global.v
theories/GlobalEst.v
theories/GlobalAccept.v
theories/Prop_Accept.v
theories/SpecCtl.v
theories/Ctl.v
theories/Prop_Ctl.v
theories/OrderIRK.v
theories/GDenseCheck.v
theories/OrderPair.v
theories/OrderPairN.v
theories/Dense.v
theories/DenseReal.v
theories/DenseStep.v
theories/DenseAcc.v
theories/DenseAccN.v
theories/DenseJoin.v
theories/DenseJoin2.v
theories/Prop_Dense.v
theories/Prop_DenseJoinN.v
theories/Smooth.v
theories/Prop_Order.v
theories/DenseNear.v
theories/DenseNearN.v
theories/Prop_DenseNear.v
theories/UDense.v
theories/GlobalDense.v
theories/Prop_GlobalDense.v
theories/GlobalN.v
theories/GlobalRunN.v
theories/Prop_GlobalN.v
theories/GlobalDenseN.v
theories/Prop_GlobalDenseN.v
theories/Ode.v
theories/CK.v
theories/CKGen.v
theories/CKReal.v
theories/CKOrder.v
theories/CKTop.v
theories/Prop_CK.v
theories/StiffReal.v
theories/Mu5Scale.v
theories/Prop_Stiff.v
theories/ESDIRK.v
theories/ESDCls.v
theories/ESDGen.v
theories/ESDReal.v
theories/ESDStep.v
theories/ESDTop.v
theories/ESDInv.v
theories/Prop_ESD.v
theories/SpecESD.v
theories/ESDCtl.v
theories/Prop_ESDCtl.v
theories/ESDLin.v
theories/ESDLin2.v
theories/ESDLin3.v
theories/ESDLin4.v
theories/Prop_ESDLin.v
theories/ESDAcc.v
theories/Stab.v
theories/Prop_Stab.v
theories/OrderIRKTab.v
theories/Prop_IRK.v
theories/ESDDense.v
theories/Prop_ESDDense.v
theories/ESDNewton.v
theories/Prop_ESDNewton.v
theories/IRKDense.v
theories/Prop_IRKDense.v
theories/GlobalIRK.v
theories/Prop_GlobalIRK.v
theories/Swag.v
theories/SwagArr.v
theories/SwagCo.v
theories/SwagGen.v
theories/SwagTop.v
theories/Adams.v
theories/SwagReal.v
theories/SwagHist.v
theories/Prop_SWAG.v
theories/SwagDense.v
theories/SwagDenseGen.v
theories/SwagDenseReal.v
theories/SwagDenseHist.v
theories/Prop_SwagDense.v
theories/Rkc.v
theories/Cheb.v
theories/RkcReal.v
theories/RkcOrd.v
theories/RkcGen.v
theories/RkcRho.v
theories/RkcStep.v
theories/RkcTop.v
theories/Prop_RKC.v
theories/Flow.v
theories/Sens.v
theories/SensGen.v
theories/SensReal.v
theories/SensFlow.v
theories/SensTop.v
theories/SensExtra.v
theories/Prop_Sens.v
theories/F64.v
theories/F64Step.v
theories/Prop_F64.v
theories/DAE.v
theories/DAEReal.v
theories/DAETop.v
theories/DAEMake.v
theories/Prop_DAE.v
theories/DAEAcc.v
theories/Prop_DAE2.v
theories/Prop_DAE3.v
theories/Prop_GlobalIRKDense.v
theories/GlobalAny.v
theories/GlobalRKC.v
theories/Prop_GlobalRKC.v
theories/GlobalCK.v
theories/Prop_GlobalCK.v
theories/EvalTimes.v
theories/EvalTimesCK.v
theories/EvalTimesSwag.v
theories/Prop_EvalTimes.v
theories/Prop_EvalTimesCK.v
theories/Prop_EvalTimesSwag.v
theories/EvalTimesRkc.v
theories/Prop_EvalTimesRkc.v
theories/Observer.v
theories/Prop_Observer.v
theories/Prop_RKLimits.v
