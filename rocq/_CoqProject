-Q theories Verif
theories/LoopModel.v
theories/LoopSpec.v
theories/LoopProofs.v
theories/LoopProps.v
theories/CdictModel.v
theories/CdictSpec.v
theories/CdictProofs.v
theories/CdictStack.v
theories/SaveModel.v
theories/SaveProofs.v
theories/CdictProps.v
theories/ScenarioModel.v
theories/ScenarioSpec.v
theories/ScenarioProofs.v
theories/ScenarioProps.v
theories/SamplerModel.v
theories/SamplerProofs.v
theories/SamplerProps.v
theories/XR.v
theories/Keys.v
theories/McmcModel.v
theories/McmcSpec.v
theories/McmcProofs.v
theories/McmcProps.v
theories/HmcModel.v
theories/HmcSpec.v
theories/HmcProofs.v
theories/HmcProps.v
theories/BisectModel.v
theories/BisectProofs.v
theories/BisectProps.v
theories/WeightsModel.v
theories/WeightsSpec.v
theories/WeightsProofs.v
theories/WeightsProps.v
theories/SmcModel.v
theories/SmcSpec.v
theories/SmcProofs.v
theories/SmcCdict.v
theories/SmcRun.v
theories/SmcNorm.v
theories/SmcProps.v
theories/AbcModel.v
theories/AbcSpec.v
theories/AbcProofs.v
theories/AbcRun.v
theories/AbcProps.v
theories/RStruct.v
theories/BfgsModel.v
theories/BfgsSpec.v
theories/BfgsProofs.v
theories/BfgsProps.v
theories/LinAlg.v
theories/GaussModel.v
theories/GaussSpec.v
theories/GaussProofs.v
theories/GaussProps.v
theories/KalmanModel.v
theories/KalmanSpec.v
theories/KalmanProofs.v
theories/KalmanProps.v
theories/SsmModel.v
theories/SsmSpec.v
theories/SsmProofs.v
theories/SsmProps.v
theories/FilterModel.v
theories/FilterSpec.v
theories/FilterProofs.v
theories/FilterProps.v
theories/FilterKeys.v
theories/BackModel.v
theories/BackSpec.v
theories/BackProofs.v
theories/BackProps.v
theories/OnlineModel.v
theories/OnlineProofs.v
theories/OnlineProps.v
theories/KernelModel.v
theories/KernelSpec.v
theories/KernelProofs.v
theories/KernelPsd.v
theories/KernelProps.v
theories/AcfModel.v
theories/AcfSpec.v
theories/AcfProofs.v
theories/AcfProps.v
theories/TekiTempModel.v
theories/TekiModel.v
theories/TekiSpec.v
theories/TekiProofs.v
theories/TekiTemps.v
theories/TekiProps.v
theories/TekiTempProps.v
theories/GcModel.v
theories/GcSpec.v
theories/GcProofs.v
theories/GcProps.v
theories/LorenzModel.v
theories/LorenzSpec.v
theories/LorenzProofs.v
theories/LorenzProps.v
theories/BackCount.v
theories/SimModel.v
theories/SimSpec.v
theories/SimProofs.v
theories/SimProps.v
theories/GkModel.v
theories/GkSpec.v
theories/GkProofs.v
theories/GkProps.v
theories/NlgModel.v
theories/NlgSpec.v
theories/NlgProofs.v
theories/NlgProps.v
theories/SvgdModel.v
theories/SvgdProofs.v
theories/SvgdSpec.v
theories/SvgdProps.v
theories/TekiRunProps.v
theories/ToyModel.v
theories/ToySpec.v
theories/ToyProps.v
theories/AbclgModel.v
theories/AbclgProps.v
theories/QnMemModel.v
theories/QnMemProps.v
theories/UnbSpec.v
theories/UnbProofs.v
theories/UnbProps.v
theories/PfSpec.v
theories/PfProofs.v
theories/PfProps.v
theories/AbcInvSpec.v
theories/AbcInvProofs.v
theories/AbcInvProps.v
theories/VolSpec.v
theories/VolProofs.v
theories/VolProps.v
theories/QnRevModel.v
theories/QnRevProofs.v
theories/QnRevProps.v
theories/KexpSpec.v
theories/KexpProofs.v
theories/BackLawSpec.v
theories/RejLawProofs.v
theories/BackLawProofs.v
theories/BackLawProps.v
theories/ChainModel.v
theories/ChainSpec.v
theories/ChainProofs.v
theories/ChainProps.v
theories/SmcLawModel.v
theories/SmcLawSpec.v
theories/SmcLawProofs.v
theories/SmcLawProps.v
theories/PfLawSpec.v
theories/PfLawProofs.v
theories/PfLawProps.v
theories/FfbsSpec.v
theories/FfbsProofs.v
theories/FfbsProps.v
theories/ImpModel.v
theories/ImpSpec.v
theories/ImpProofs.v
theories/ImpProps.v
theories/AbcLawModel.v
theories/AbcLawSpec.v
theories/AbcLawProofs.v
theories/AbcLawRw.v
theories/AbcLawProps.v
theories/HmcLawModel.v
theories/HmcLawSpec.v
theories/HmcLawProofs.v
theories/HmcLawProps.v
theories/MalaSpec.v
theories/MalaProofs.v
theories/MalaProps.v
theories/PathLawSpec.v
theories/PathLawProofs.v
theories/PathLawProps.v
theories/RmLawModel.v
theories/RmLawSpec.v
theories/RmLawProofs.v
theories/RmLawProps.v
theories/SmcMoveProofs.v
theories/SmcUdModel.v
theories/SmcUdSpec.v
theories/SmcUdProofs.v
theories/SmcUdProps.v
theories/OnlineLawSpec.v
theories/OnlineLawProofs.v
theories/OnlineLawProps.v
theories/OnlineUpdSpec.v
theories/OnlineUpdProofs.v
theories/OnlineUpdProps.v
theories/PfVarProofs.v
theories/PfVarProps.v
theories/SmcVarProofs.v
theories/SmcVarProps.v
theories/LimitSpec.v
theories/NlgLimProofs.v
theories/NlgLimProps.v
theories/TekiLimProofs.v
theories/TekiLimProps.v
theories/ImpVarSpec.v
theories/ImpVarProofs.v
theories/ImpVarProps.v
theories/CleanModel.v
theories/CleanSpec.v
theories/CleanProofs.v
theories/CleanProps.v
theories/AbcStepModel.v
theories/AbcStepSpec.v
theories/AbcStepProofs.v
theories/AbcStepProps.v
theories/BandModel.v
theories/BandSpec.v
theories/BandProofs.v
theories/BandProps.v
