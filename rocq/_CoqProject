-Q theories Verif
theories/Num.v
theories/ScalarModel.v
theories/ScalarSpec.v
theories/ScalarReset.v
theories/ScalarEval.v
theories/ScalarRev.v
theories/ScalarTerm.v
theories/ScalarApi.v
theories/ScalarHist.v
theories/ScalarUser.v
theories/ScalarBuild.v
theories/NumInst.v
theories/ScalarFacts.v
theories/ScalarTotal.v
theories/ScalarMore.v
theories/ScalarWitness.v
theories/PropScalar.v
theories/Calculus.v
theories/ScalarCalc.v
theories/Activation.v
theories/PropCalc.v
theories/Misc.v
theories/PropMisc.v
theories/MatMem.v
theories/Kernels.v
theories/KernelFacts.v
theories/KernelProofs.v
theories/KernelBlocks.v
theories/KernelMore.v
theories/Registry.v
theories/KernelStep.v
theories/Backend.v
theories/Square.v
theories/Slots.v
theories/Exec.v
theories/Sums.v
theories/Determ.v
theories/InvCalc.v
theories/Conv.v
theories/ConvProofs.v
theories/ConvDerv.v
theories/ConvHist.v
theories/ConvRev.v
theories/PropKernel.v
theories/PropConv.v
theories/Cuda.v
theories/CudaKernels.v
theories/CudaTiled.v
theories/PropBackend.v
theories/MatEngine.v
theories/MatGraph.v
theories/MatLeaf.v
theories/MatEval.v
theories/MatDeval.v
theories/MatHist.v
theories/MatSpec.v
theories/MatCalls.v
theories/MatFuel.v
theories/MatCalc.v
theories/PropMatrix.v
theories/MatRev.v
theories/MatInplace.v
theories/RevVals.v
theories/MatRevOk.v
theories/MatRevCall.v
theories/MatRevHist.v
theories/PropReverse.v
theories/ScalarSym.v
theories/VarObj.v
theories/VarObjSpec.v
theories/PropVarObj.v
theories/GaussNewton.v
theories/GaussScalar.v
theories/PropGauss.v
theories/SymForm.v
theories/SymOk.v
theories/SymInit.v
theories/SymSess.v
theories/SymUser.v
theories/SymCalc.v
theories/SymWitness.v
theories/PropSym.v
theories/MatFunSpec.v
theories/MatFun.v
theories/MatFunOk.v
theories/PropMatFun.v
theories/SymHess.v
theories/SymHessCalc.v
theories/HessWitness.v
theories/PropHess.v
theories/Vec.v
theories/VecOk.v
theories/VecCall.v
theories/VecDer.v
theories/PropVec.v
theories/PropSquare.v
theories/Param.v
theories/EnvExt.v
theories/Threads.v
theories/Train.v
theories/TrainSpec.v
theories/TrainOk.v
theories/TrainRun.v
theories/TrainAll.v
theories/TrainCalc.v
theories/PropTrain.v
theories/Dropout.v
theories/PropDropout.v
theories/ScalarMat.v
theories/PropScalarMat.v
theories/MatObj.v
theories/MatObjSpec.v
theories/MatObjOk.v
theories/PropMatObj.v
theories/MatCopy.v
theories/PropMatCopy.v
theories/PropMatScalar.v
theories/PropMatDiff.v
theories/GaussCurve.v
theories/PropGaussian.v
theories/MatAssign.v
theories/PropAssign.v
theories/PropStable.v
theories/MatEnough.v
theories/GaussMatrix.v
theories/PropGaussMatrix.v
theories/MatEnds.v
theories/PropMatEnds.v
theories/FloatEval.v
theories/PropFloat.v
theories/MatRec.v
theories/MatRecSim.v
theories/MatRecOk.v
theories/MatRecRun.v
theories/MatRecSpec.v
theories/MatRecGrow.v
theories/PropMatRec.v
theories/LoadData.v
theories/PropData.v
theories/ExampleNet.v
theories/PropNet.v
theories/MatFunGrad.v
theories/PropFunGrad.v
theories/PropNetTrain.v
