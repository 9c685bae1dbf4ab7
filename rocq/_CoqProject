-Q theories Verif
theories/Base.v
theories/TimeModel.v
theories/TimeSpec.v
theories/TimeProofs.v
theories/TimeProps.v
theories/ArchiveModel.v
theories/ArchiveSpec.v
theories/ArchiveProofs.v
theories/ArchiveProps.v
theories/PermuteModel.v
theories/PermuteSpec.v
theories/PermuteProofs.v
theories/PermuteProps.v
theories/GridModel.v
theories/GridSpec.v
theories/GridProofs.v
theories/GridProps.v
theories/JobQueueModel.v
theories/JobQueueSpec.v
theories/JobQueueProofs.v
theories/JobQueueProps.v
theories/TimestampModel.v
theories/TimestampSpec.v
theories/TimestampProofs.v
theories/TimestampProps.v
theories/OMap.v
theories/MatArchiveModel.v
theories/MatArchiveSpec.v
theories/MatArchiveProofs.v
theories/MatArchiveProps.v
theories/StringModel.v
theories/StringSpec.v
theories/StringProofs.v
theories/StringProps.v
theories/BatchModel.v
theories/BatchSpec.v
theories/BatchProofs.v
theories/BatchProps.v
theories/IncModel.v
theories/IncSpec.v
theories/IncProofs.v
theories/IncProps.v
theories/EstModel.v
theories/EstSpec.v
theories/EstProofs.v
theories/EstProps.v
theories/Arith.v
theories/F64Proofs.v
theories/OptModel.v
theories/OptSpec.v
theories/OptProofs.v
theories/RArith.v
theories/OptReal.v
theories/OptWitness.v
theories/OptProps.v
theories/JacModel.v
theories/JacSpec.v
theories/MatReal.v
theories/JacDiffSpec.v
theories/JacProofs.v
theories/JacReal.v
theories/JacProps.v
theories/CcmModel.v
theories/CcmSpec.v
theories/CcmProofs.v
theories/CcmBuild.v
theories/CcmOps.v
theories/CcmReal.v
theories/CcmProps.v
theories/ThrModel.v
theories/ThrSpec.v
theories/ThrProofs.v
theories/ThrProps.v
theories/ProbModel.v
theories/ProbSpec.v
theories/ProbProofs.v
theories/ProbProps.v
theories/MEstModel.v
theories/MEstProps.v
theories/WgtProofs.v
theories/WgtProps.v
theories/SbmModel.v
theories/SbmSpec.v
theories/SbmProofs.v
theories/SbmMore.v
theories/SbmReal.v
theories/SbmProps.v
theories/SbmCcs.v
theories/SbmFull.v
theories/LsModel.v
theories/LsSpec.v
theories/LsProofs.v
theories/LsProps.v
theories/McModel.v
theories/McSpec.v
theories/McProofs.v
theories/McProps.v
theories/HesModel.v
theories/HesSpec.v
theories/HesProofs.v
theories/HesLs.v
theories/HesProps.v
theories/TgtModel.v
theories/TgtProofs.v
theories/TgtProps.v
theories/ObsSpec.v
theories/ObsProofs.v
theories/AprilProofs.v
theories/DetProofs.v
theories/ObsProps.v
theories/KinModel.v
theories/KinSpec.v
theories/KinProofs.v
theories/KinExp.v
theories/KinAxis.v
theories/KinCurve.v
theories/KinJac.v
theories/KinProps.v
theories/RotModel.v
theories/RotSpec.v
theories/RotEuler.v
theories/RotVec.v
theories/RotVecJ.v
theories/RotProps.v
theories/TfModel.v
theories/TfSpec.v
theories/TfProofs.v
theories/TfCurve.v
theories/HpProofs.v
theories/TfProps.v
theories/DistModel.v
theories/DistSpec.v
theories/DistProofs.v
theories/DistUndist.v
theories/DistProps.v
theories/PinModel.v
theories/CamSpec.v
theories/PinProofs.v
theories/PinProps.v
theories/OmniModel.v
theories/OmniSpec.v
theories/OmniProofs.v
theories/OmniProps.v
theories/EucmModel.v
theories/EucmSpec.v
theories/EucmProofs.v
theories/EucmProps.v
theories/DsModel.v
theories/DsSpec.v
theories/DsProofs.v
theories/DsProps.v
theories/BsplModel.v
theories/BsplSpec.v
theories/BsplProofs.v
theories/BsplProps.v
theories/BsdProofs.v
theories/BsdProps.v
theories/BsqModel.v
theories/BsqProofs.v
theories/BsqProps.v
theories/BsfProofs.v
theories/BsfProps.v
theories/BshModel.v
theories/BshProofs.v
theories/BshProps.v
theories/BpModel.v
theories/BpSpec.v
theories/BpProofs.v
theories/BpProps.v
theories/ExprModel.v
theories/ExprSpec.v
theories/ExprProofs.v
theories/ExprMain.v
theories/ExprChart.v
theories/ExprDv.v
theories/ExprErr.v
theories/ExprProps.v
theories/DvModel.v
theories/DvSpec.v
theories/DvProofs.v
theories/DvDerive.v
theories/DvProps.v
theories/SplModel.v
theories/SplSpec.v
theories/SplProofs.v
theories/SplProps.v
theories/ToModel.v
theories/ToSpec.v
theories/ToProofs.v
theories/ToProps.v
theories/MgModel.v
theories/MgSpec.v
theories/MgProofs.v
theories/MgProps.v
theories/TagModel.v
theories/TagTables.v
theories/TagSpec.v
theories/TagProofs.v
theories/TagProps.v
theories/TdModel.v
theories/TdSpec.v
theories/TdProofs.v
theories/TdProps.v
theories/UfModel.v
theories/UfSpec.v
theories/UfProofs.v
theories/UfProps.v
theories/LutModel.v
theories/LutSpec.v
theories/LutProofs.v
theories/LutProps.v
theories/QsModel.v
theories/QsSpec.v
theories/QsProofs.v
theories/QsSearch.v
theories/QsProps.v
theories/RpeModel.v
theories/RpeSpec.v
theories/RpeProofs.v
theories/RpeTerm.v
theories/RpeProps.v
theories/RsModel.v
theories/RsSpec.v
theories/RsProofs.v
theories/RsProps.v
theories/CgModel.v
theories/CgSpec.v
theories/CgProofs.v
theories/CgProps.v
theories/ImuModel.v
theories/ImuSpec.v
theories/ImuProofs.v
theories/ImuCurve.v
theories/ImuProps.v
theories/FdModel.v
theories/FdSpec.v
theories/FdProofs.v
theories/FdProps.v
theories/MeModel.v
theories/MeSpec.v
theories/MeCurve.v
theories/MeProofs.v
theories/MeLine.v
theories/MeProps.v
theories/MfModel.v
theories/MfSpec.v
theories/MfProofs.v
theories/MfProps.v
theories/IniModel.v
theories/IniSpec.v
theories/IniProofs.v
theories/IniLoop.v
theories/IniProps.v
theories/OiModel.v
theories/OiSpec.v
theories/OiProofs.v
theories/OiProps.v
theories/SvModel.v
theories/SvSpec.v
theories/SvProofs.v
theories/SvMain.v
theories/SvStep.v
theories/SvProps.v
theories/GfModel.v
theories/GfSpec.v
theories/GfProofs.v
theories/GfProps.v
theories/LfModel.v
theories/LfSpec.v
theories/LfProofs.v
theories/LfProps.v
theories/EcModel.v
theories/EcSpec.v
theories/EcProofs.v
theories/EcMerge.v
theories/EcProps.v
theories/GmModel.v
theories/GmSpec.v
theories/GmProofs.v
theories/GmProps.v
theories/FxModel.v
theories/FxSpec.v
theories/FxProofs.v
theories/FxProps.v
theories/SecModel.v
theories/SecSpec.v
theories/SecProofs.v
theories/SecProps.v
theories/NhModel.v
theories/NhSpec.v
theories/NhProps.v
theories/TpModel.v
theories/TpSpec.v
theories/TpProofs.v
theories/TpProps.v
theories/KpModel.v
theories/KpSpec.v
theories/KpProofs.v
theories/KpProps.v
theories/TriModel.v
theories/TriSpec.v
theories/TriProofs.v
theories/TriProps.v
theories/UdModel.v
theories/UdSpec.v
theories/UdProofs.v
theories/UdProps.v
theories/OvModel.v
theories/OvSpec.v
theories/OvProofs.v
theories/OvProps.v
theories/PcgModel.v
theories/PcgSpec.v
theories/PcgCg.v
theories/PcgProofs.v
theories/PcgProps.v
theories/TmrModel.v
theories/TmrSpec.v
theories/TmrProofs.v
theories/TmrProps.v
theories/LgModel.v
theories/LgSpec.v
theories/LgProofs.v
theories/LgProps.v
theories/GsModel.v
theories/GsSpec.v
theories/GsProofs.v
theories/GsProps.v
theories/GqModel.v
theories/GqSpec.v
theories/GqLin.v
theories/GqInv.v
theories/GqProofs.v
theories/GqProps.v
theories/NdModel.v
theories/NdSpec.v
theories/NdProofs.v
theories/NdProps.v
theories/RzModel.v
theories/RzSpec.v
theories/RzProofs.v
theories/RzProps.v
theories/GxModel.v
theories/GxSpec.v
theories/GxProofs.v
theories/GxProps.v
theories/RkModel.v
theories/RkSpec.v
theories/RkProofs.v
theories/RkProps.v
theories/MxModel.v
theories/MxSpec.v
theories/MxProofs.v
theories/MxProps.v
theories/MtxModel.v
theories/MtxSpec.v
theories/MtxProofs.v
theories/MtxProps.v
theories/OlmModel.v
theories/OlmSpec.v
theories/OlmProofs.v
theories/OlmProps.v
theories/OdlModel.v
theories/OdlSpec.v
theories/OdlProofs.v
theories/OdlProps.v
theories/FmtModel.v
theories/FmtSpec.v
theories/FmtProofs.v
theories/FmtProps.v
theories/SopModel.v
theories/SopSpec.v
theories/SopProofs.v
theories/SopProps.v
theories/SchModel.v
theories/SchSpec.v
theories/SchProofs.v
theories/SchProps.v
theories/OinModel.v
theories/OinSpec.v
theories/OinProofs.v
theories/OinProps.v
theories/BagModel.v
theories/BagSpec.v
theories/BagProofs.v
theories/BagProps.v
theories/OdbModel.v
theories/OdbSpec.v
theories/OdbProofs.v
theories/OdbProps.v
theories/TexModel.v
theories/TexSpec.v
theories/TexProofs.v
theories/TexProps.v
theories/KnsModel.v
theories/KnsSpec.v
theories/KnsProofs.v
theories/KnsProps.v
theories/McgModel.v
theories/McgSpec.v
theories/McgProofs.v
theories/McgProps.v
theories/YkrModel.v
theories/YkrSpec.v
theories/YkrProofs.v
theories/YkrProps.v
