-Q theories Verif
theories/Base.v
theories/ImageModel.v
theories/ImageFacts.v
theories/IndexModel.v
theories/ImageProofs.v
theories/PropImage.v
theories/GeomModel.v
theories/GeomProofs.v
theories/PadProofs.v
theories/CropProofs.v
theories/RotateModel.v
theories/RotateProofs.v
theories/PropGeom.v
theories/DrawModel.v
theories/DrawProofs.v
theories/PropDraw.v
theories/PixelModel.v
theories/PixelProofs.v
theories/PropPixel.v
theories/BigSum.v
theories/ConvModel.v
theories/ConvProofs.v
theories/ConvNProofs.v
theories/WindowProofs.v
theories/PropConv.v
theories/HistModel.v
theories/HistProofs.v
theories/PropHist.v
theories/BmpModel.v
theories/BmpProofs.v
theories/PropBmp.v
theories/TextModel.v
theories/TextProofs.v
theories/PropText.v
theories/OField.v
theories/LinModel.v
theories/LinProofs.v
theories/SolveProofs.v
theories/PropLin.v
theories/RSum.v
theories/JacobiModel.v
theories/JacobiProofs.v
theories/PropJacobi.v
theories/FourierModel.v
theories/FourierProofs.v
theories/PropFourier.v
theories/InterpModel.v
theories/ReduceModel.v
theories/InterpProofs.v
theories/ReduceProofs.v
theories/PropInterp.v
theories/PropReduce.v
theories/MatchModel.v
theories/MatchProofs.v
theories/PropMatch.v
theories/HomModel.v
theories/HomProofs.v
theories/WarpProofs.v
theories/PropHom.v
theories/PropRobust.v
theories/PropStitch.v
theories/CliModel.v
theories/CliProofs.v
theories/PipeProofs.v
theories/PropCli.v
theories/PropPipe.v
theories/NestedModel.v
theories/NestedProofs.v
theories/PropNested.v
theories/CubeModel.v
theories/CubeProofs.v
theories/PropCube.v
theories/SiftModel.v
theories/SiftProofs.v
theories/OrientProofs.v
theories/PropSift.v
theories/BundleModel.v
theories/BundleProofs.v
theories/PropBundle.v
theories/GaussModel.v
theories/GaussProofs.v
theories/PropGauss.v
theories/LanczosModel.v
theories/LanczosProofs.v
theories/PropScale.v
theories/ColourModel.v
theories/ColourProofs.v
theories/PropColour.v
theories/TurnModel.v
theories/TurnProofs.v
theories/FisheyeModel.v
theories/FisheyeProofs.v
theories/PropTurn.v
theories/BilateralModel.v
theories/BilateralProofs.v
theories/PropBilateral.v
theories/FrechetProofs.v
theories/FitModel.v
theories/FitProofs.v
theories/FitLoopProofs.v
theories/PropFit.v
theories/FrameModel.v
theories/FrameProofs.v
theories/PropFrame.v
theories/PanoModel.v
theories/PropPano.v
theories/ContainerModel.v
theories/ContainerProofs.v
theories/PropContainer.v
theories/PluginModel.v
theories/PropPlugin.v
theories/CommandModel.v
theories/CommandProofs.v
theories/PropCommand.v
theories/PropCommand2.v
theories/PrintModel.v
theories/PrintProofs.v
theories/PropPrint.v
theories/ArithModel.v
theories/ArithProofs.v
theories/PropArith.v
theories/ElemModel.v
theories/ElemProofs.v
theories/PropElem.v
theories/RandModel.v
theories/PropRand.v
theories/AngleModel.v
theories/PropAngle.v
theories/StageModel.v
theories/PropStage.v
theories/SessionModel.v
theories/PropSession.v
theories/KeyModel.v
theories/PropKey.v
theories/CudaModel.v
theories/CudaProofs.v
theories/PropCuda.v
theories/StackModel.v
theories/PropStack.v
theories/GlueModel.v
theories/PropGlue.v
theories/PlanesModel.v
theories/PropPlanes.v
theories/HelpModel.v
theories/PropHelp.v
theories/FloatModel.v
theories/FloatProofs.v
theories/PropFloat.v
theories/RoundModel.v
theories/RoundProofs.v
theories/PropRound.v
theories/HueModel.v
theories/PropHue.v
theories/PropSumError.v
theories/NormModel.v
theories/PropNorm.v
theories/DistModel.v
theories/PropDist.v
theories/SquareModel.v
theories/PropSquare.v
