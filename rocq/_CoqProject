-Q theories Verif
theories/AddIntEx.v
theories/AddIntModel.v
theories/AddIntProofs.v
theories/AddIntProps.v
theories/AddIntSpec.v
theories/AmpExamples.v
theories/AmpIntModel.v
theories/AmpIntProofs.v
theories/AmpIntProps.v
theories/AmpIntProps2.v
theories/AmpLeafModel.v
theories/AmpLeafProps.v
theories/AmpLeafSpec.v
theories/AmpModel.v
theories/AmpProofs.v
theories/AmpProofs2.v
theories/AmpProofs3.v
theories/AmpProofs4.v
theories/AmpProps.v
theories/AmpSpec.v
theories/ArrayModel.v
theories/ArrayProofs.v
theories/ArrayProps.v
theories/ArraySpec.v
theories/BeamModel.v
theories/BeamProofs.v
theories/BeamProps.v
theories/BeamProps2.v
theories/BeamProps3.v
theories/BeamSpec.v
theories/BestFitModel.v
theories/BestFitProps.v
theories/BinModel.v
theories/BinOrdProps.v
theories/BinProps.v
theories/BinProps2.v
theories/BoseModel.v
theories/BoseProofs.v
theories/BoseProps.v
theories/CGBoxModel.v
theories/CGBoxProofs.v
theories/CGBoxProps.v
theories/CGBoxProps2.v
theories/CGModel.v
theories/CGProofs.v
theories/CGSpec.v
theories/CGValProofs.v
theories/CGValProps.v
theories/CMatModel.v
theories/CMatProps.v
theories/ChiModel.v
theories/ChiProofs.v
theories/ChiProofs2.v
theories/ChiProofs3.v
theories/ChiProofs4.v
theories/ChiProofs5.v
theories/ChiProps.v
theories/ChiSpec.v
theories/DFuncModel.v
theories/DFuncProofs.v
theories/DFuncProps.v
theories/DFuncSpec.v
theories/DecModel.v
theories/EventMetaModel.v
theories/EventMetaProps.v
theories/EvtModel.v
theories/EvtProofs.v
theories/EvtProps.v
theories/EvtProps2.v
theories/EvtProps3.v
theories/EvtSpec.v
theories/ExpandModel.v
theories/ExpandProofs.v
theories/ExpandProps.v
theories/ExpandSpec.v
theories/FileMgrModel.v
theories/FileMgrProps.v
theories/FitByNameProps.v
theories/FitErrModel.v
theories/FitErrProps.v
theories/FitIntProps.v
theories/FitNameProps.v
theories/FitResultModel.v
theories/FitSdmProps.v
theories/FitStoreProps.v
theories/FracModel.v
theories/FracProofs.v
theories/FracProps.v
theories/FracProps2.v
theories/FracProps3.v
theories/FracSpec.v
theories/FrameModel.v
theories/FrameProofs.v
theories/FrameProofs2.v
theories/FrameProofs3.v
theories/FrameProofs4.v
theories/FrameProps.v
theories/FrameProps2.v
theories/FrameProps3.v
theories/FrameSpec.v
theories/GpuModel.v
theories/GpuProofs.v
theories/GpuProofs2.v
theories/GpuProps.v
theories/GpuSpec.v
theories/GridProps.v
theories/IntensCases.v
theories/IntensModel.v
theories/IntensProofs.v
theories/IntensProofs2.v
theories/IntensProps.v
theories/IntensProps2.v
theories/IntensProps3.v
theories/IntensSpec.v
theories/LikBinProofs.v
theories/LikBinProps.v
theories/LikCacheProps.v
theories/LikCovProps.v
theories/LikFixProps.v
theories/LikGradProofs.v
theories/LikGradProps.v
theories/LikHessProps.v
theories/LikIntProps.v
theories/LikModel.v
theories/LikNormProps.v
theories/LikParModel.v
theories/LikParProofs.v
theories/LikParProps.v
theories/LikScaleProps.v
theories/LikSetModel.v
theories/LikSetProofs.v
theories/LikSetProps.v
theories/LikSetRef.v
theories/LikSignProps.v
theories/MassDepModel.v
theories/MassDepProofs.v
theories/MassDepProps.v
theories/MassDepSpec.v
theories/MinimModel.v
theories/MinimProofs.v
theories/MinimProps.v
theories/MinimProps2.v
theories/MinimProps3.v
theories/MinimProps4.v
theories/MinimSpec.v
theories/NloptEx.v
theories/NloptModel.v
theories/NloptProofs.v
theories/NloptProps.v
theories/PaChiModel.v
theories/PaChiProofs.v
theories/PaChiProofs2.v
theories/PaChiProofs3.v
theories/PaChiProofs4.v
theories/PaChiProofs5.v
theories/PaChiProofs6.v
theories/PaChiProps.v
theories/PaChiProps2.v
theories/PaChiProps3.v
theories/PaChiSpec.v
theories/ParityExamples.v
theories/ParityModel.v
theories/ParityProofs.v
theories/ParityProofs2.v
theories/ParityProofs3.v
theories/ParityProofs4.v
theories/ParityProofs5.v
theories/ParityProps.v
theories/ParitySpec.v
theories/ParticleModel.v
theories/ParticleProps.v
theories/ParticleProps2.v
theories/ParticleProps3.v
theories/PathModel.v
theories/PathProps.v
theories/PhaseModel.v
theories/PhaseProofs.v
theories/PhaseProofs2.v
theories/PhaseProofs3.v
theories/PhaseProofs4.v
theories/PhaseProps.v
theories/PhaseProps2.v
theories/PhaseProps3.v
theories/PhaseProps4.v
theories/PhaseProps5.v
theories/PhaseSpec.v
theories/PhysModel.v
theories/PhysProps.v
theories/PhysSpec.v
theories/PickModel.v
theories/PickProofs.v
theories/PickProofs2.v
theories/PickProofs3.v
theories/PickProps.v
theories/PickProps2.v
theories/PickSpec.v
theories/PrimeModel.v
theories/PrimeProofs.v
theories/PrimeProps.v
theories/PrimeSpec.v
theories/ProdModel.v
theories/ProdProofs.v
theories/ProdProofs2.v
theories/ProdProofs3.v
theories/ProdProofs4.v
theories/ProdProps.v
theories/ProdProps2.v
theories/ProdProps3.v
theories/ProdSpec.v
theories/PsIntCases.v
theories/PsIntCases2.v
theories/PsIntModel.v
theories/PsIntProofs.v
theories/PsIntProofs2.v
theories/PsIntProofs3.v
theories/PsIntProofs4.v
theories/PsIntProps.v
theories/PsIntProps2.v
theories/PsIntSpec.v
theories/PwaFitEx.v
theories/PwaFitModel.v
theories/PwaFitProofs.v
theories/PwaFitProps.v
theories/RegexModel.v
theories/RegexProps.v
theories/ResCacheModel.v
theories/ResCacheProps.v
theories/ResCfgModel.v
theories/ResCfgProofs.v
theories/ResCfgProofs2.v
theories/ResCfgProofs3.v
theories/ResCfgProofs4.v
theories/ResCfgProps.v
theories/ResCfgSpec.v
theories/ResTransProofs.v
theories/ResTransProps.v
theories/ResTransSpec.v
theories/SampleCases.v
theories/SampleModel.v
theories/SampleProofs.v
theories/SampleProofs2.v
theories/SampleProps.v
theories/SampleProps2.v
theories/SampleProps3.v
theories/SampleSpec.v
theories/SpinModel.v
theories/SpinProofs.v
theories/SpinProps.v
theories/SpinSpec.v
theories/StrModel.v
theories/SumAccModel.v
theories/SumAccProofs.v
theories/SumAccProps.v
theories/VertexModel.v
theories/VertexProps.v
theories/WaveDescModel.v
theories/WaveDescProofs.v
theories/WaveDescProps.v
theories/WaveDescSpec.v
theories/WaveNameModel.v
theories/WaveNameProofs.v
theories/WaveNameProps.v
theories/WaveNameSpec.v
theories/WaveSetModel.v
theories/WaveSetProofs.v
theories/WaveSetProofs2.v
theories/WaveSetProofs3.v
theories/WaveSetProps.v
theories/WaveSetProps2.v
theories/WaveSetSpec.v
theories/WeightModel.v
theories/WeightProofs.v
theories/WeightProofs2.v
theories/WeightProps.v
theories/WeightProps2.v
theories/WeightProps3.v
theories/WeightSpec.v
theories/WignerProofs.v
