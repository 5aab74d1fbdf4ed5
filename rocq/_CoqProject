-Q theories Verif
theories/AttrModel.v
theories/AttrProofs.v
theories/Base.v
theories/BeamModel.v
theories/ColumnModel.v
theories/ColumnProofs.v
theories/ColumnProofs2.v
theories/ColumnProofs3.v
theories/ColumnProofs4.v
theories/ColumnProofs5.v
theories/ComplexCalc.v
theories/ConstitutiveModel.v
theories/ConstitutiveProofs.v
theories/ConstitutiveProofs2.v
theories/ConstitutiveProofs3.v
theories/ConstitutiveProofs4.v
theories/ConstitutiveProofs5.v
theories/ConstitutiveProofs6.v
theories/CosenzaModel.v
theories/DengModel.v
theories/DengProofs.v
theories/DingModel.v
theories/DingProofs.v
theories/DriverModel.v
theories/EpusExtModel.v
theories/EpusModel.v
theories/EpusProfileModel.v
theories/EpusProofs1.v
theories/EpusProofs2.v
theories/EpusProofs3.v
theories/EpusSpec.v
theories/FourierModel.v
theories/FourierProofs.v
theories/FourierProofs2.v
theories/GeometryModel.v
theories/GeometryProofs.v
theories/GeometryProofs2.v
theories/GeometryProofs3.v
theories/GeometryProofs4.v
theories/HelpersModel.v
theories/IntegralsGen.v
theories/LaplaceModel.v
theories/LaplaceProofs.v
theories/LayersModel.v
theories/LayersProofs.v
theories/LnBounds.v
theories/LoadComplexGen.v
theories/LoadComplexModel.v
theories/LoadComplexProofs.v
theories/LoadComplexProofs2.v
theories/LoadGen.v
theories/LoadModel.v
theories/LoadProofs.v
theories/LoadProofs2.v
theories/LoadProofs3.v
theories/LoadTrigGen.v
theories/LoadTrigModel.v
theories/LoadTrigProofs.v
theories/LoadTrigProofs2.v
theories/LoadTrigProofs3.v
theories/LuModel.v
theories/LuProofs.v
theories/LuProofs2.v
theories/MeshModel.v
theories/MeshProofs.v
theories/ModalProofs1.v
theories/ModalProofs2.v
theories/ModalProofs3.v
theories/ModalProofs4.v
theories/ModalProofs5.v
theories/NTransformModel.v
theories/NogamiModel.v
theories/NogamiProofs.v
theories/NogamiProofs2.v
theories/NogamiProofs3.v
theories/NogamiProofs4.v
theories/NogamiProofs5.v
theories/NogamiProofs6.v
theories/NogamiProofs7.v
theories/NogamiProofs8.v
theories/NonDarcyEtaModel.v
theories/NonDarcyModel.v
theories/NonDarcyProofs.v
theories/NonDarcyProofs2.v
theories/PiBounds.v
theories/PiecewiseModel.v
theories/PiecewiseProofs.v
theories/PiecewiseProofs2.v
theories/PiecewiseProofs3.v
theories/PiecewiseProofs4.v
theories/PiecewiseProofs5.v
theories/PlotModel.v
theories/PlotProofs.v
theories/PolyLineModel.v
theories/PolyLineProofs.v
theories/PolyLineProofs2.v
theories/PolyLineProofs3.v
theories/PolyLineProofs4.v
theories/PolyLineProofs5.v
theories/PolyLineProofs6.v
theories/PolyLineProofs7.v
theories/PropsAttr.v
theories/PropsBeam.v
theories/PropsBeam2.v
theories/PropsBeam3.v
theories/PropsBeam4.v
theories/PropsBeam5.v
theories/PropsBeam6.v
theories/PropsColumn.v
theories/PropsConstitutive.v
theories/PropsCosenza.v
theories/PropsDeng.v
theories/PropsDeng2.v
theories/PropsDing.v
theories/PropsDing2.v
theories/PropsDing3.v
theories/PropsDing4.v
theories/PropsDing5.v
theories/PropsDriver.v
theories/PropsEpus.v
theories/PropsEpus2.v
theories/PropsEpus3.v
theories/PropsEpus4.v
theories/PropsEpus5.v
theories/PropsEpus6.v
theories/PropsEpus7.v
theories/PropsEpusExt.v
theories/PropsEpusExt2.v
theories/PropsEpusProfile.v
theories/PropsEpusProfile2.v
theories/PropsEpusProfile3.v
theories/PropsEpusProfile4.v
theories/PropsFourier.v
theories/PropsFourier2.v
theories/PropsFourier3.v
theories/PropsFourier4.v
theories/PropsGalerkin.v
theories/PropsGeometry.v
theories/PropsHelpers.v
theories/PropsLaplace.v
theories/PropsLayers.v
theories/PropsLoad.v
theories/PropsLoadComplex.v
theories/PropsLoadTrig.v
theories/PropsLu.v
theories/PropsNTransform.v
theories/PropsNogami.v
theories/PropsNonDarcy.v
theories/PropsNonDarcy2.v
theories/PropsNonDarcyEta.v
theories/PropsPiecewise.v
theories/PropsPlot.v
theories/PropsPolyLine.v
theories/PropsQuadrature.v
theories/PropsRoot.v
theories/PropsSave.v
theories/PropsShan.v
theories/PropsSmear.v
theories/PropsSmear2.v
theories/PropsSmearBack.v
theories/PropsSpecBeam.v
theories/PropsSpecBeam2.v
theories/PropsSpecBeam3.v
theories/PropsSpecBeam4.v
theories/PropsSpecBeam5.v
theories/PropsSpecBeam6.v
theories/PropsSpecBeamModal.v
theories/PropsSpecBeamModal2.v
theories/PropsSpecBeamModal3.v
theories/PropsSpecBeamModal4.v
theories/PropsSpecBeamModal5.v
theories/PropsSpecBeamUnder.v
theories/PropsSpeccon.v
theories/PropsSpectral.v
theories/PropsStein.v
theories/PropsStem.v
theories/PropsSwcc.v
theories/PropsSyntax.v
theories/PropsTang.v
theories/PropsTerzaghi.v
theories/PropsTime.v
theories/PropsTimeout.v
theories/PropsUnsat.v
theories/PropsWell.v
theories/PropsWrap.v
theories/PropsXie.v
theories/PropsYin.v
theories/PropsYin2.v
theories/PropsZhu.v
theories/QuadratureGen.v
theories/QuadratureModel.v
theories/QuadratureProofs.v
theories/QuadratureProofs2.v
theories/QuadratureProofs3.v
theories/QuadratureProofs4.v
theories/RootModel.v
theories/RootProofs.v
theories/RootProofs2.v
theories/SaveModel.v
theories/SaveProofs.v
theories/SetupGen.v
theories/ShanModel.v
theories/ShanProofs.v
theories/ShanProofs2.v
theories/ShanProofs3.v
theories/SmearBackModel.v
theories/SmearModel.v
theories/SmearProofs.v
theories/SmearProofs2.v
theories/SmearProofs3.v
theories/SmearProofs4.v
theories/SmearProofs5.v
theories/SmearProofs6.v
theories/SmearProofs7.v
theories/SpecAttr.v
theories/SpecBeamModalModel.v
theories/SpecBeamModel.v
theories/SpecBeamMotion.v
theories/SpecBeamProofs1.v
theories/SpecBeamProofs2.v
theories/SpecBeamSpec.v
theories/SpecBeamUnderModel.v
theories/SpecColumn.v
theories/SpecComplex.v
theories/SpecConstitutive.v
theories/SpecDeng.v
theories/SpecFourier.v
theories/SpecGalerkin.v
theories/SpecGeometry.v
theories/SpecLaplace.v
theories/SpecLoad.v
theories/SpecLu.v
theories/SpecModal.v
theories/SpecNTransform.v
theories/SpecNogami.v
theories/SpecPiecewise.v
theories/SpecPiecewiseApi.v
theories/SpecPlot.v
theories/SpecPolyLine.v
theories/SpecQuadrature.v
theories/SpecRoot.v
theories/SpecSave.v
theories/SpecShan.v
theories/SpecSmear.v
theories/SpecSpeccon.v
theories/SpecSpectral.v
theories/SpecStein.v
theories/SpecStem.v
theories/SpecSuper.v
theories/SpecSwcc.v
theories/SpecSyntax.v
theories/SpecTang.v
theories/SpecTerzaghi.v
theories/SpecUnsat.v
theories/SpecWell.v
theories/SpecWrap.v
theories/SpecXie.v
theories/SpecYin.v
theories/SpecZhu.v
theories/SpecconModel.v
theories/SpecconProofs.v
theories/SpecconProofs10.v
theories/SpecconProofs2.v
theories/SpecconProofs3.v
theories/SpecconProofs4.v
theories/SpecconProofs5.v
theories/SpecconProofs6.v
theories/SpecconProofs7.v
theories/SpecconProofs8.v
theories/SpecconProofs9.v
theories/SpectralModel.v
theories/SpectralProofs.v
theories/SpectralProofs2.v
theories/SpectralProofs3.v
theories/SpectralProofs4.v
theories/SpectralProofs5.v
theories/SpectralProofs6.v
theories/SteinModel.v
theories/SteinProofs.v
theories/SteinProofs2.v
theories/SteinProofs3.v
theories/SteinProofs4.v
theories/SteinProofs5.v
theories/SteinProofs6.v
theories/StemModel.v
theories/StemProofs.v
theories/SwccModel.v
theories/SwccProofs.v
theories/SwccProofs2.v
theories/SwccProofs3.v
theories/SyntaxGen.v
theories/SyntaxModel.v
theories/SyntaxProofs.v
theories/TangModel.v
theories/TangProofs.v
theories/TerzaghiModel.v
theories/TerzaghiProofs.v
theories/TerzaghiProofs2.v
theories/TimeProofs.v
theories/TimeProofs2.v
theories/TimeProofs3.v
theories/TimeoutModel.v
theories/UnsatModel.v
theories/UnsatProofs.v
theories/UnsatProofs2.v
theories/UnsatProofs3.v
theories/UnsatProofs4.v
theories/WellModel.v
theories/WellProofs.v
theories/WellProofs2.v
theories/WellProofs3.v
theories/WellProofs4.v
theories/WellProofs5.v
theories/WellProofs6.v
theories/WrapModel.v
theories/WrapProofs.v
theories/XieModel.v
theories/XieProofs.v
theories/XieProofs2.v
theories/XieProofs3.v
theories/XieProofs4.v
theories/YinModel.v
theories/YinProofs.v
theories/YinProofs2.v
theories/ZhuModel.v
theories/ZhuProofs.v
theories/ZhuProofs2.v
theories/ZhuProofs3.v
theories/ZhuProofs4.v
