-Q theories Verif
theories/Prelude.v
theories/Adds.v
theories/RstrModel.v
theories/RstrSpec.v
theories/RstrProofs.v
theories/RstrKernels.v
theories/RstrMain.v
theories/RstrPoints.v
theories/RstrProps.v
theories/TensorModel.v
theories/TensorProofs.v
theories/TensorAvx.v
theories/TensorMain.v
theories/TensorProps.v
theories/BasisModel.v
theories/Digits.v
theories/BasisProofs.v
theories/BasisMain.v
theories/BasisApply.v
theories/BasisProps.v
theories/PointsModel.v
theories/PointsProofs.v
theories/PointsProps.v
theories/VecModel.v
theories/VecSpec.v
theories/VecProofs.v
theories/VecSim.v
theories/VecStep.v
theories/VecRefine.v
theories/VecLaws.v
theories/VecProps.v
theories/VecFind.v
theories/OpModel.v
theories/OpSpec.v
theories/OpLists.v
theories/OpProofs.v
theories/OpMain.v
theories/OpTree.v
theories/OpProps.v
theories/StrModel.v
theories/QfModel.v
theories/QfProps.v
theories/JitModel.v
theories/JitProps.v
theories/JitLoad.v
theories/WorkModel.v
theories/WorkProps.v
theories/BuildModel.v
theories/BuildProofs.v
theories/BuildProps.v
theories/BuildLen.v
theories/CtxModel.v
theories/CtxSpec.v
theories/CtxProofs.v
theories/CtxProps.v
theories/CtxField.v
theories/MultModel.v
theories/MultProps.v
theories/LabelModel.v
theories/LabelProofs.v
theories/LabelMain.v
theories/LabelHist.v
theories/LabelProps.v
theories/RefModel.v
theories/RefSpec.v
theories/RefProofs.v
theories/RefMain.v
theories/RefCalls.v
theories/RefHist.v
theories/RefProps.v
theories/MgModel.v
theories/MgProps.v
theories/AsmModel.v
theories/AsmSpec.v
theories/AsmProofs.v
theories/AsmProps.v
theories/CacheModel.v
theories/CacheSpec.v
theories/CacheProps.v
theories/DenseModel.v
theories/DenseProofs.v
theories/FullModel.v
theories/FullSpec.v
theories/FullSide.v
theories/FullProofs.v
theories/FullMain.v
theories/FullProps.v
theories/DiagModel.v
theories/DiagProofs.v
theories/DiagMain.v
theories/DiagProps.v
theories/QrModel.v
theories/RealLin.v
theories/QrProofs.v
theories/QrFact.v
theories/QrPinv.v
theories/QrCheb.v
theories/QrProps.v
theories/OptModel.v
theories/OptProofs.v
theories/OptMain.v
theories/OptProps.v
theories/LagModel.v
theories/LagProofs.v
theories/LagQuad.v
theories/LagProps.v
theories/ProjModel.v
theories/ProjProofs.v
theories/ProjProps.v
theories/GalModel.v
theories/GalProps.v
theories/AtpModel.v
theories/AtpSpec.v
theories/AtpProofs.v
theories/AtpMain.v
theories/AtpProps.v
theories/AtqModel.v
theories/AtqSpec.v
theories/AtqProofs.v
theories/AtqProps.v
theories/AtdModel.v
theories/AtdSpec.v
theories/AtdProofs.v
theories/AtdAlg.v
theories/AtdProps.v
theories/SchurModel.v
theories/SchurTri.v
theories/SchurRot.v
theories/SchurMain.v
theories/SchurProps.v
theories/SimDiag.v
theories/SimProps.v
theories/FdmModel.v
theories/FdmProofs.v
theories/FdmInv.v
theories/FdmMain.v
theories/FdmProps.v
theories/OptAsmModel.v
theories/OptAsmProofs.v
theories/OptAsmProps.v
theories/McModel.v
theories/McSpec.v
theories/McProofs.v
theories/McStep.v
theories/McStep2.v
theories/McStep3.v
theories/McStep4.v
theories/McStep5.v
theories/McStep6.v
theories/McProps.v
theories/CmModel.v
theories/CmSpec.v
theories/CmProofs.v
theories/CmStep.v
theories/CmStep2.v
theories/CmStep3.v
theories/CmProps.v
theories/MqModel.v
theories/MqSpec.v
theories/MqProofs.v
theories/MqMain.v
theories/MqDetect.v
theories/MqProps.v
theories/MrModel.v
theories/MrProps.v
theories/JrModel.v
theories/JrProofs.v
theories/JrProps.v
theories/FlopModel.v
theories/FlopProofs.v
theories/FlopProps.v
theories/FbModel.v
theories/FbProps.v
theories/QueModel.v
theories/QueProofs.v
theories/QueProps.v
theories/RaModel.v
theories/RaProofs.v
theories/RaStep.v
theories/RaProps.v
theories/MlModel.v
theories/MlProofs.v
theories/MlProps.v
theories/QcModel.v
theories/QcProofs.v
theories/QcProps.v
