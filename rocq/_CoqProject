-Q theories Verif
theories/Base.v
theories/LogicM.v
theories/GeometryM.v
theories/OptimizeM.v
theories/PathM.v
theories/CandidatesM.v
theories/SceneM.v
theories/UtilsM.v
theories/SwitchM.v
theories/JitM.v
theories/BuildM.v
theories/BaseP.v
theories/SpecLogic.v
theories/LogicP.v
theories/PropertiesLogic.v
theories/SpecSwitch.v
theories/SwitchP.v
theories/JitP.v
theories/PropertiesSwitch.v
theories/SpecApprox.v
theories/ApproxP.v
theories/PropertiesApprox.v
theories/SpecGeometry.v
theories/SegP.v
theories/VecP.v
theories/WallP.v
theories/ShapeP.v
theories/PropertiesGeometry.v
theories/SpecCandidates.v
theories/CandidatesP.v
theories/PropertiesCandidates.v
theories/SpecOptimize.v
theories/OptimizeP.v
theories/SpecPath.v
theories/PathP.v
theories/PathSmoothP.v
theories/PathShapeP.v
theories/PropertiesPath.v
theories/SpecImage.v
theories/ImageP.v
theories/ImageExP.v
theories/PropertiesImage.v
theories/SpecScene.v
theories/SceneP.v
theories/SceneBoxP.v
theories/SceneOpsP.v
theories/PropertiesScene.v
theories/SpecRun.v
theories/SceneRunP.v
theories/SceneAccP.v
theories/SceneGridP.v
theories/RunExP.v
theories/PropertiesRun.v
theories/SpecBuild.v
theories/BuildP.v
theories/PropertiesBuild.v
theories/SpecPower.v
theories/PowerP.v
theories/PropertiesPower.v
theories/SpecMotion.v
theories/MotionP.v
theories/MotionSceneP.v
theories/PropertiesMotion.v
theories/ScaleP.v
theories/PropertiesScale.v
theories/SpecCont.v
theories/ContP.v
theories/ContPathP.v
theories/ContImageP.v
theories/ContSceneP.v
theories/ContExP.v
theories/PropertiesCont.v
theories/PlotM.v
theories/SpecPlot.v
theories/PlotP.v
theories/PropertiesPlot.v
theories/FloatM.v
theories/SpecFloat32.v
theories/FloatP.v
theories/FloatLogicP.v
theories/FloatCmpP.v
theories/FloatAccP.v
theories/FloatGeomP.v
theories/FloatSegP.v
theories/PropertiesFloat.v
theories/SpecSolver.v
theories/SolverP.v
theories/PropertiesSolver.v
theories/AdM.v
theories/SpecAd.v
theories/AdPos.v
theories/AdPosP.v
theories/AdP.v
theories/AdSoundP.v
theories/AdGeomP.v
theories/AdGradP.v
theories/AdNanP.v
theories/AdRightP.v
theories/AdExP.v
theories/PropertiesAd.v
theories/SpecTrans.v
theories/AdTransP.v
theories/PropertiesTrans.v
theories/SpecCap.v
theories/CapP.v
theories/PropertiesCap.v
theories/AdExactP.v
theories/AdExactExP.v
theories/PropertiesAdExact.v
theories/ArrayM.v
theories/SpecArray.v
theories/ArrayP.v
theories/ArrayRedP.v
theories/PropertiesArray.v
theories/SpecGrid.v
theories/FloatGridP.v
theories/FloatAgreeP.v
theories/FloatBoundP.v
theories/PropertiesGrid.v
theories/SpecOrder.v
theories/OrderP.v
theories/TurnP.v
theories/OrderExP.v
theories/PropertiesOrder.v
theories/SpecRecip.v
theories/RecipP.v
theories/RecipExP.v
theories/PropertiesRecip.v
theories/SpecRoom.v
theories/RoomP.v
theories/RoomSceneP.v
theories/RoomSmoothP.v
theories/PropertiesLeak.v
theories/PropertiesRoom.v
theories/SourceM.v
theories/SpecSource.v
theories/PropertiesSource.v
theories/FloatImageM.v
theories/SpecImage32.v
theories/FloatImageP.v
theories/FloatImageErrP.v
theories/FloatImageChainP.v
theories/FloatImageLossP.v
theories/FloatImagePathP.v
theories/FloatImageValidP.v
theories/PropertiesImage32.v
theories/AdamM.v
theories/SpecAdam.v
theories/AdamP.v
theories/AdamRunP.v
theories/AdamNanP.v
theories/PropertiesAdam.v
theories/SpecSlope.v
theories/SlopeP.v
theories/PropertiesSlope.v
theories/SpecAdd.v
theories/AddP.v
theories/PropertiesAdd.v
theories/SpecComplete.v
theories/CompleteP.v
theories/PropertiesComplete.v
theories/DiffractP.v
theories/PropertiesDiffract.v
theories/SpecDescent.v
theories/DescentP.v
theories/DescentConvP.v
theories/PropertiesDescent.v
theories/SpecAnywhere.v
theories/FloatAnyP.v
theories/PropertiesAnywhere.v
theories/FloatObliqueP.v
theories/FloatShiftP.v
theories/PropertiesOblique.v
theories/SpecAccuracy.v
theories/FloatLenP.v
theories/PropertiesAccuracy.v
theories/FloatSceneM.v
theories/SpecScene32.v
theories/FloatCrossP.v
theories/FloatSceneP.v
theories/PropertiesScene32.v
