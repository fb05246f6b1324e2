-Q theories Verif
theories/AllocModel.v
theories/ApiModel.v
theories/ApiPlanModel.v
theories/ApiPlanProofs.v
theories/ApiProofs.v
theories/ApiR2C.v
theories/ApiR2R.v
theories/Base.v
theories/CopyBounds.v
theories/CopyModel.v
theories/CopyProofs.v
theories/Cplx.v
theories/DftComp.v
theories/DftMath.v
theories/DftModel.v
theories/DftPrime.v
theories/DftProofs.v
theories/DftSplit.v
theories/DftTw.v
theories/DftTw2.v
theories/FlagsModel.v
theories/GenAlg.v
theories/GenAlgProofs.v
theories/GenAlgVars.v
theories/GenAlist.v
theories/GenAlistProofs.v
theories/GenAnnot.v
theories/GenAnnotProofs.v
theories/GenAnnotProofs2.v
theories/GenAnnotProofs3.v
theories/GenAnnotProofs4.v
theories/GenConst.v
theories/GenCplx.v
theories/GenExec.v
theories/GenExpr.v
theories/GenFft.v
theories/GenInputs.v
theories/GenKernel.v
theories/GenKernel2.v
theories/GenKernel3.v
theories/GenKernel4.v
theories/GenKernel5.v
theories/GenKernel6.v
theories/GenLink.v
theories/GenLink2.v
theories/GenMain.v
theories/GenMath.v
theories/GenNewsplit.v
theories/GenNum.v
theories/GenPrint.v
theories/GenPrintExec.v
theories/GenPrintProofs.v
theories/GenPrintScalar.v
theories/GenProofs.v
theories/GenRader.v
theories/GenReal.v
theories/GenSched.v
theories/GenSchedProofs.v
theories/GenTrans.v
theories/GenTransProofs.v
theories/GenTrig.v
theories/GenTrigProofs.v
theories/GenTrigRk.v
theories/GenTwid.v
theories/GenTwidProofs.v
theories/HashModel.v
theories/HashProofs.v
theories/HcBuf.v
theories/HcComp.v
theories/HcGen.v
theories/HcGenMath.v
theories/HcLib.v
theories/HcMath.v
theories/HcModel.v
theories/HcStep.v
theories/IForm.v
theories/ImportHead.v
theories/ImportMerge.v
theories/ImportModel.v
theories/ImportProofs.v
theories/ImportRound.v
theories/ImportScan.v
theories/ImportTheory.v
theories/Md5Model.v
theories/MpiDistLocal.v
theories/MpiDistModel.v
theories/MpiDistSim.v
theories/MpiExch.v
theories/MpiModel.v
theories/MpiProofs.v
theories/MpiProofs2.v
theories/MpiSched.v
theories/MpiSlab.v
theories/MpiTransModel.v
theories/NumTheory.v
theories/Offs.v
theories/ParProofs.v
theories/PlannerBuilt.v
theories/PlannerMin.v
theories/PlannerModel.v
theories/PlannerRemember.v
theories/PlannerSafe.v
theories/PlannerScope.v
theories/PlannerTrace.v
theories/PrimesModel.v
theories/PrimesProofs.v
theories/PropAlloc.v
theories/PropCopy.v
theories/PropDft.v
theories/PropFlags.v
theories/PropGenalg.v
theories/PropGenalist.v
theories/PropGenannot.v
theories/PropGenfft.v
theories/PropGenlink.v
theories/PropGenlink2.v
theories/PropGenlink3.v
theories/PropGenlink4.v
theories/PropGenprint.v
theories/PropGenreal.v
theories/PropGensched.v
theories/PropGentrans.v
theories/PropGentwid.v
theories/PropImport.v
theories/PropMd5.v
theories/PropMpi.v
theories/PropMpiDist.v
theories/PropMpiTrans.v
theories/PropParallel.v
theories/PropPlanner.v
theories/PropPrimes.v
theories/PropR2C.v
theories/PropR2R.v
theories/PropTensor.v
theories/PropText.v
theories/PropThreads.v
theories/PropTranspose.v
theories/PropTrig.v
theories/PropTwiddle.v
theories/PropWisdom.v
theories/R2Final.v
theories/R2Lib.v
theories/R2Model.v
theories/R2Proofs.v
theories/R2Rank2.v
theories/R2Row.v
theories/R2X.v
theories/RMath.v
theories/RSum.v
theories/RaceProofs.v
theories/Rank0Model.v
theories/Rank0Plans.v
theories/Rank0Proofs.v
theories/Rank0Trans.v
theories/RdftCanon.v
theories/RdftDht.v
theories/RdftGen.v
theories/RdftLib.v
theories/RdftLoop.v
theories/RdftModel.v
theories/RdftOdd.v
theories/RdftPad.v
theories/RdftProofs.v
theories/RdftRad.v
theories/RdftReo.v
theories/RdftSplit.v
theories/RdftX.v
theories/Spec.v
theories/SpecAlloc.v
theories/SpecApi.v
theories/SpecApiPlan.v
theories/SpecImport.v
theories/SpecMd5.v
theories/SpecParallel.v
theories/SpecPlanner.v
theories/SpecR2C.v
theories/SpecR2R.v
theories/SpecThreads.v
theories/SpecWisdom.v
theories/TensorModel.v
theories/TensorProofs.v
theories/TextModel.v
theories/ThreadInv.v
theories/ThreadModel.v
theories/ThreadStep.v
theories/ThreadTree.v
theories/Toms513.v
theories/TransProofs.v
theories/TrigModel.v
theories/TwModel.v
theories/XForm.v
theories/XKern.v
theories/XPar.v
theories/XParTw.v
theories/XSeq.v
