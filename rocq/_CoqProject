-Q theories Verif
theories/Base.v
theories/VecModel.v
theories/VecSpec.v
theories/VecProofs.v
theories/VecProps.v
theories/ToolsModel.v
theories/ToolsSpec.v
theories/ToolsProofs.v
theories/PolyProofs.v
theories/ToolsProps.v
theories/MatModel.v
theories/MatProofs.v
theories/DRModel.v
theories/DRSpec.v
theories/DRProofs.v
theories/DRRed.v
theories/DRStep.v
theories/DRLemmas.v
theories/DRProps.v
theories/DRFinal.v
theories/DRPath.v
theories/BasisProps.v
theories/FrobSpec.v
theories/FrobModel.v
theories/FrobPath.v
theories/FrobProofs.v
theories/FrobSum.v
theories/FrobTop.v
theories/FrobProps.v
theories/ProgModel.v
theories/ProgProofs.v
theories/CacheModel.v
theories/CacheProofs.v
theories/CacheFrob.v
theories/CacheCover.v
theories/CachePrep.v
theories/ParModel.v
theories/ParProofs.v
theories/CacheProps.v
theories/MpzModel.v
theories/MpzSpec.v
theories/MpzProofs.v
theories/MpzProps.v
theories/NewtonMC.v
theories/CharModel.v
theories/CharSpec.v
theories/CharProofs.v
theories/CharNewton.v
theories/CharMC.v
theories/CharProps.v
theories/ArgsModel.v
theories/ArgsProofs.v
theories/ZetaModel.v
theories/ZetaProofs.v
theories/ZetaProps.v
theories/IoModel.v
theories/IoProofs.v
theories/IoProps.v
theories/SaveModel.v
theories/SaveProofs.v
theories/SaveProps.v
theories/LinAlg.v
theories/SolveModel.v
theories/SolveSpec.v
theories/SolveProofs.v
theories/SmoothProofs.v
theories/LuInst.v
theories/SolveProps.v
theories/FdModel.v
theories/FdSpec.v
theories/FdProofs.v
theories/FdProps.v
theories/NDModel.v
theories/NDSpec.v
theories/NDMat.v
theories/NDRed.v
theories/NDCol.v
theories/NDStep.v
theories/NDPoly.v
theories/NDBasis.v
theories/NDProps.v
theories/FrobNDModel.v
theories/FrobND.v
theories/FrobNDTop.v
theories/FrobNDProps.v
theories/NDCacheModel.v
theories/NDCacheProofs.v
theories/NDCacheFrob.v
theories/NDCachePrep.v
theories/NDParModel.v
theories/NDParProofs.v
theories/NDCacheProps.v
theories/ChangeModel.v
theories/ChangeSpec.v
theories/ChangeProofs.v
theories/ChangeMC.v
theories/ChangeFind.v
theories/ChangeProps.v
theories/PicardModel.v
theories/PicardNum.v
theories/PicardSpec.v
theories/PicardProofs.v
theories/PicardMC.v
theories/PicardRoots.v
theories/PicardTop.v
theories/PicardDouble.v
theories/PicardProps.v
theories/PicardEx.v
theories/HilbKoszul.v
theories/HilbPoly.v
theories/HilbTop.v
theories/HilbDim.v
theories/HilbNum.v
theories/HilbInit.v
theories/HilbCode.v
theories/HilbProps.v
theories/LuFast.v
theories/RunModel.v
theories/RunProofs.v
theories/RunProps.v
theories/UniqKoszul.v
theories/UniqFun.v
theories/UniqCode.v
theories/UniqProps.v
theories/TestModel.v
theories/TestProofs.v
theories/TestBasis.v
theories/TestProps.v
theories/CtorModel.v
theories/CtorSpec.v
theories/CtorProofs.v
theories/CtorRand.v
theories/CtorProps.v
theories/SaveNDModel.v
theories/SaveNDProofs.v
theories/SaveNDProps.v
theories/TestSpec.v
theories/TestDetect.v
theories/TestDetectProps.v
theories/AgreeProps.v
theories/FlintProps.v
theories/InvModel.v
theories/InvProofs.v
theories/InvProps.v
theories/ExModel.v
theories/ExSpec.v
theories/ExIdent.v
theories/ExProofs.v
theories/ExProps.v
theories/DwModel.v
theories/DwProofs.v
theories/DwProps.v
theories/PtSpec.v
theories/PtMax.v
theories/PtProofs.v
theories/PtConv.v
theories/PtMain.v
theories/PtProps.v
theories/DigSpec.v
theories/DigProofs.v
theories/DigProps.v
theories/MemModel.v
theories/MemSpec.v
theories/MemProofs.v
theories/MemLoop.v
theories/MemProps.v
theories/ExpModel.v
theories/ExpProofs.v
theories/ExpProps.v
theories/FlModel.v
theories/FlSpec.v
theories/FlProofs.v
theories/FlIeee.v
theories/FlPicard.v
theories/FlProps.v
theories/TmainModel.v
theories/TmainProps.v
theories/TimeModel.v
theories/TimeProps.v
theories/JndProps.v
theories/WrapModel.v
theories/WrapProps.v
theories/TransProps.v
theories/JndCmpProps.v
theories/DigitsProps.v
