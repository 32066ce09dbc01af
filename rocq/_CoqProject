-Q theories Verif
theories/PyErr.v
theories/Sums.v
theories/Convex.v
theories/DataTermsSpec.v
theories/DataTermsModel.v
theories/DataTermsProofs.v
theories/DataTermsProps.v
theories/DataTermsNd.v
theories/DataTermsNdProps.v
theories/SolversModel.v
theories/SolversSpec.v
theories/SolversGeneric.v
theories/SolversProps.v
theories/RegularizersModel.v
theories/SolversConv.v
theories/SolversConvProps.v
theories/SolversEMProps.v
theories/SolversOptProps.v
theories/Arrays.v
theories/OperatorsModel.v
theories/OperatorsProps.v
theories/OperatorsMoreProps.v
theories/OperatorsLayoutProps.v
theories/RegularizersMore.v
theories/RegularizersProps.v
theories/RegularizersWaveProps.v
theories/Rounding.v
theories/ParamTuningModel.v
theories/ParamTuningProps.v
theories/GeometryModel.v
theories/GeometryProps.v
theories/GeometryMoreProps.v
theories/GeometryVolProps.v
theories/BackendsModel.v
theories/BackendsProps.v
theories/BackendsGeomProps.v
theories/Fourier.v
theories/FourierN.v
theories/FourierOpModel.v
theories/FourierOpProps.v
theories/ProjectorsModel.v
theories/ProjectorsProps.v
theories/FiltersModel.v
theories/FiltersProps.v
theories/FiltersBasisProps.v
theories/Reindex.v
theories/ProcMiscModel.v
theories/ProcMiscProps.v
theories/ProcPreModel.v
theories/ProcPreProps.v
theories/ProcPostModel.v
theories/ProcPostProps.v
theories/FourierBox.v
theories/AlignFitModel.v
theories/AlignFitProps.v
theories/AlignXcProps.v
theories/AlignShiftProps.v
theories/AlignEllipseProps.v
theories/AlignShiftsModel.v
theories/AlignShiftsProps.v
theories/ConeBeamModel.v
theories/ConeBeamProps.v
theories/ConeBeamFitProps.v
theories/ConeBeamEtaProps.v
theories/AlignMiscModel.v
theories/AlignMiscProps.v
theories/AlignMarkerProps.v
theories/StructIllumModel.v
theories/QuadChar.v
theories/MuraProps.v
theories/StructIllumProps.v
theories/GhostScaleProps.v
theories/PhysicsModel.v
theories/PhysicsProps.v
theories/PhysicsAttProps.v
theories/PhysicsBeamProps.v
theories/PhaseModel.v
theories/PhaseProps.v
theories/PdhgConv.v
theories/Compact.v
theories/PdhgConvProps.v
theories/PdhgExistProps.v
theories/TvProps.v
theories/NuclearModel.v
theories/NuclearProps.v
theories/ProxGrad.v
theories/LsExist.v
theories/FirstOrderProps.v
theories/EmConv.v
theories/EmConvProps.v
theories/SartConvProps.v
theories/LipschitzProps.v
theories/ConeBeamTuneProps.v
theories/PdhgData.v
theories/PdhgDataProps.v
theories/PdhgSeq.v
theories/MinExist.v
theories/PdhgSeqRun.v
theories/PdhgSeqProps.v
theories/KlPdhgProps.v
theories/DenoiseModel.v
theories/DenoiseProps.v
theories/TestingModel.v
theories/TestingProps.v
theories/TuningRunModel.v
theories/TuningRunProps.v
theories/WaveletsModel.v
theories/WaveletsProps.v
theories/DwtModel.v
theories/DwtProps.v
theories/SmoothGrad.v
theories/SirtTermsProps.v
theories/SolverObjModel.v
theories/SolverObjProps.v
theories/SartTolModel.v
theories/SartTolProps.v
theories/AlignPreModel.v
theories/AlignPreProps.v
theories/DtypesModel.v
theories/DtypesProps.v
theories/RotScaleModel.v
theories/RotScaleProps.v
theories/MasksModel.v
theories/MasksProps.v
theories/FbpFilterModel.v
theories/FbpFilterProps.v
theories/ConeBeamInitModel.v
theories/ConeBeamInitProps.v
theories/GeometryDefaultsModel.v
theories/GeometryDefaultsProps.v
theories/SkimageModel.v
theories/SkimageProps.v
theories/ProjCtorModel.v
theories/ProjCtorProps.v
theories/AstraInputModel.v
theories/AstraInputProps.v
theories/KlResidualProps.v
theories/RotateModel.v
theories/RotateProps.v
theories/MarginModel.v
theories/MarginProps.v
theories/PropFilterModel.v
theories/PropFilterProps.v
theories/XraylibModel.v
theories/XraylibProps.v
theories/Assumptions.v
