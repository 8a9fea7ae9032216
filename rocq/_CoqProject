-Q theories Verif
theories/Cx.v
theories/Sums.v
theories/DFT.v
theories/PyBase.v
theories/BackendModel.v
theories/BackendFacts.v
theories/PropsBackend.v
theories/ControllerModel.v
theories/ControllerSpec.v
theories/ControllerFacts.v
theories/ControllerFacts2.v
theories/ControllerFacts3.v
theories/PropsController.v
theories/PropsController2.v
theories/ProfileModel.v
theories/SlmModel.v
theories/LibModel.v
theories/DmdModel.v
theories/OriginFacts.v
theories/SimModel.v
theories/SimSpec.v
theories/GridFacts.v
theories/GridFacts2.v
theories/PropsGrid.v
theories/SimFacts.v
theories/SimFacts2.v
theories/SimFacts3.v
theories/SimFacts4.v
theories/SimFacts5.v
theories/SimHist.v
theories/SimExamples.v
theories/SimNone.v
theories/PropsSim.v
theories/PropsSim2.v
theories/PropsSim3.v
theories/DmdSpec.v
theories/DmdFacts.v
theories/DmdFacts2.v
theories/DmdFacts3.v
theories/RandomFacts.v
theories/AmpFacts.v
theories/AmpFacts2.v
theories/AmpFacts3.v
theories/AmpFacts4.v
theories/DmdThms.v
theories/DmdExamples.v
theories/PropsDmd.v
theories/AmpFacts5.v
theories/SymFacts.v
theories/PhaseFacts.v
theories/AberrFacts.v
theories/OrderFacts.v
theories/FringeFacts.v
theories/PropsDmd2.v
theories/PropsDmd3.v
theories/StatSpec.v
theories/StatFacts.v
theories/StatThms.v
theories/PropsRandom.v
theories/HoloSpec.v
theories/HoloFacts.v
theories/HoloFacts2.v
theories/HoloThms.v
theories/IftaFacts.v
theories/HoloExamples.v
theories/PropsHolo.v
theories/MrafFacts.v
theories/ShapeSpec.v
theories/ShapeFacts.v
theories/RowFacts.v
theories/RowFacts2.v
theories/PeriodFacts.v
theories/ShapeThms.v
theories/PropsShape.v
theories/PropsHolo2.v
theories/ProfSpec.v
theories/ProfFacts.v
theories/ProfFacts2.v
theories/ProfFacts3.v
theories/AttrFacts.v
theories/ModeSpec.v
theories/ModeFacts.v
theories/ModeThms.v
theories/TensorThms.v
theories/PropsProfile.v
theories/PropsProfile2.v
theories/PropsModes.v
theories/ZernSpec.v
theories/NablaFacts.v
theories/ZernFacts.v
theories/ZernThms.v
theories/PropsZernike.v
theories/ZernBound.v
theories/ZernBound2.v
theories/PropsZernike2.v
theories/AnalysisModel.v
theories/AnsiFacts.v
theories/AnaSpec.v
theories/AnaFacts.v
theories/AnaThms.v
theories/PropsAnalysis.v
theories/PlaneSpec.v
theories/GaussInt.v
theories/LagInt.v
theories/ErfInt.v
theories/ModeInt.v
theories/PropsModes2.v
theories/LatticeSpec.v
theories/LatticeFacts.v
theories/DiscMoments.v
theories/LatticeThms.v
theories/PropsLattice.v
theories/StabFacts.v
theories/PropsStab.v
theories/IftaSym.v
theories/PropsIfta.v
theories/ScaleFacts.v
theories/PropsScale.v
theories/BestFacts.v
theories/PropsBest.v
theories/GaussSum.v
theories/GaussSum2.v
theories/GaussSpec.v
theories/GaussFacts.v
theories/MoveFacts.v
theories/PropsMove.v
theories/PropsGauss.v
theories/FloatModel.v
theories/FloatSpec.v
theories/FloatFacts.v
theories/FloatFacts2.v
theories/FloatFacts3.v
theories/FloatFacts4.v
theories/FloatLink.v
theories/PropsFloat.v
theories/EquiSpec.v
theories/EquiFacts.v
theories/EquiExamples.v
theories/PropsEqui.v
theories/StoreModel.v
theories/StoreSpec.v
theories/StoreFacts.v
theories/StoreExamples.v
theories/PropsStore.v
theories/FlSimModel.v
theories/FlSimSpec.v
theories/NormFacts.v
theories/FlSimFacts.v
theories/FlSimLink.v
theories/PropsFlSim.v
theories/PropsAberr.v
theories/WinSpec.v
theories/WinFacts.v
theories/WinExample.v
theories/PropsWin.v
theories/LinearFacts.v
theories/PropsLinear.v
theories/FftModel.v
theories/FftSpec.v
theories/FftFacts.v
theories/FftFacts2.v
theories/FftFacts3.v
theories/FftLink.v
theories/PropsFft.v
theories/PanelSpec.v
theories/PanelFacts.v
theories/PropsPanel.v
theories/HermSpec.v
theories/HermSum.v
theories/HermSum2.v
theories/HermFacts.v
theories/HermCase.v
theories/PropsHerm.v
theories/ThreshModel.v
theories/ThreshFacts.v
theories/PropsThresh.v
theories/RingSpec.v
theories/RingAlg.v
theories/RingFacts.v
theories/RingCase.v
theories/PropsRing.v
theories/OverlapSpec.v
theories/OverSum.v
theories/OverFacts.v
theories/OverThms.v
theories/OverCase.v
theories/PropsOverlap.v
theories/SignalSpec.v
theories/SignalFacts.v
theories/PropsSignal.v
theories/SignFacts.v
theories/PropsSign.v
theories/RandIfta.v
theories/PropsRandIfta.v
theories/CellFacts.v
theories/PropsCell.v
theories/WinFilter.v
theories/PropsFilter.v
theories/FringeSpec.v
theories/FringeErr.v
theories/FringeErr2.v
theories/PropsFringe.v
theories/InverseSpec.v
theories/FringeRand.v
theories/FringeRand2.v
theories/PropsDuty.v
theories/ReflSpec.v
theories/ReflFacts.v
theories/ReflFacts2.v
theories/PropsRefl.v
theories/StallSpec.v
theories/StallFacts.v
theories/StallFacts2.v
theories/PropsStall.v
theories/FlLcosModel.v
theories/FlLcosFacts.v
theories/PropsFlLcos.v
theories/AimSpec.v
theories/AimFacts.v
theories/AimFacts2.v
theories/PropsAim.v
theories/MultiSpec.v
theories/MultiFacts.v
theories/PropsMulti.v
theories/PatchSpec.v
theories/PatchFacts.v
theories/PropsPatch.v
theories/CureSpec.v
theories/CureFacts.v
theories/PropsCure.v
theories/FlModeModel.v
theories/NarrowSpec.v
theories/NarrowFacts.v
theories/NarrowFacts2.v
theories/PropsNarrow.v
theories/NanModel.v
theories/NanSpec.v
theories/NanFacts.v
theories/NanFacts2.v
theories/PropsNan.v
theories/FlHoloModel.v
theories/FlHoloSpec.v
theories/FlHoloFacts.v
theories/FlHoloFacts2.v
theories/FlHoloFacts3.v
theories/FwdModel.v
theories/FwdSpec.v
theories/FwdFacts.v
theories/FwdFacts2.v
theories/FlHoloFacts4.v
theories/FlHoloFacts5.v
theories/PropsFlHolo.v
theories/FlImgFacts.v
theories/FlImgFacts2.v
theories/FlImgFacts3.v
theories/FlImgFacts4.v
theories/FlImgFacts5.v
theories/FlImgFacts6.v
theories/PropsFlImg.v
theories/FlGsModel.v
theories/FlGsFacts.v
theories/FlGsFacts2.v
theories/FlGsFacts3.v
theories/FlGsFacts4.v
theories/FlGsFacts5.v
theories/FlGsFacts6.v
theories/PropsFlGs.v
theories/WideSpec.v
theories/WideFacts.v
theories/WideFacts2.v
theories/WideFacts3.v
theories/PropsWide.v
theories/FlGridModel.v
theories/FlGridSpec.v
theories/FlGridFacts.v
theories/FlGridFacts2.v
theories/FlWinFacts.v
theories/FlWinFacts2.v
theories/FlWinFacts3.v
theories/PropsFlGrid.v
theories/RankModel.v
theories/RankSpec.v
theories/RankFacts.v
theories/RankFacts2.v
theories/RankFacts3.v
theories/RankFacts4.v
theories/PropsRank.v
theories/RankLcosModel.v
theories/RankLcosSpec.v
theories/RankLcosFacts.v
theories/RankLcosFacts2.v
theories/PropsRankLcos.v
theories/RankIftaModel.v
theories/RankIftaSpec.v
theories/RankIftaFacts.v
theories/RankIftaFacts2.v
theories/PropsRankIfta.v
theories/CropModel.v
theories/CropFacts.v
theories/PropsCrop.v
theories/OverflowModel.v
theories/OverflowSpec.v
theories/OverflowFacts.v
theories/OverflowFacts2.v
theories/OverflowFacts3.v
theories/PropsOverflow.v
theories/StoreFacts2.v
theories/ForgetSpec.v
theories/ForgetFacts.v
theories/PropsForget.v
theories/KwModel.v
theories/KwSpec.v
theories/KwFacts.v
theories/KwFacts2.v
theories/PropsKw.v
theories/UnitSpec.v
theories/UnitFacts.v
theories/UnitFacts2.v
theories/PropsUnit.v
theories/RankPatchModel.v
theories/RankPatchSpec.v
theories/RankPatchFacts.v
theories/RankPatchFacts2.v
theories/RankPatchFacts3.v
theories/PropsRankPatch.v
theories/TurnSpec.v
theories/TurnFacts.v
theories/TurnFacts2.v
theories/PropsTurn.v
theories/NanHoloModel.v
theories/NanHoloSpec.v
theories/NanHoloFacts.v
theories/PropsNanHolo.v
theories/AnaNanModel.v
theories/AnaNanSpec.v
theories/AnaNanFacts.v
theories/PropsAnaNan.v
theories/QuantSpec.v
theories/QuantFacts.v
theories/PropsQuant.v
theories/ShowModel.v
theories/ShowSpec.v
theories/ShowFacts.v
theories/PropsShow.v
theories/DarkFacts.v
theories/PropsDark.v
theories/NanBeamModel.v
theories/NanBeamSpec.v
theories/NanBeamFacts.v
theories/PropsNanBeam.v
theories/FlAnaModel.v
theories/FlAnaSpec.v
theories/FlAnaFacts.v
theories/FlAnaFacts2.v
theories/FlAnaFacts3.v
theories/FlAnaThms.v
theories/PropsFlAna.v
theories/FlZernModel.v
theories/FlZernSpec.v
theories/FlZernFacts.v
theories/FlZernFacts2.v
theories/FlZernThms.v
theories/PropsFlZern.v
theories/FlHermModel.v
theories/FlHermSpec.v
theories/FlHermFacts.v
theories/FlHermThms.v
theories/PropsFlHerm.v
theories/FlSupModel.v
theories/FlSupSpec.v
theories/FlSupFacts.v
theories/FlSupThms.v
theories/FlSupFacts2.v
theories/FlSupFacts3.v
theories/FlSupFar.v
theories/FlSupSing.v
theories/PropsFlSup.v
theories/FlLagModel.v
theories/FlLagSpec.v
theories/FlLagFacts.v
theories/FlLagThms.v
theories/PropsFlLag.v
theories/FlProfModel.v
theories/FlProfSpec.v
theories/FlProfThms.v
theories/FlProfGauss.v
theories/PropsFlProf.v
theories/XAmpModel.v
theories/XAmpSpec.v
theories/XAmpFacts.v
theories/PropsXAmp.v
theories/XPhaseModel.v
theories/XPhaseSpec.v
theories/XPhaseFacts.v
theories/PropsXPhase.v
