-Q theories Verif
theories/Base.v
theories/CountsModel.v
theories/CountsSpec.v
theories/CountsProofs.v
theories/CountsProperties.v
theories/LinAlg.v
theories/BasisSem.v
theories/MeasCalModel.v
theories/MeasCalSpec.v
theories/MeasCalCircProofs.v
theories/MeasCalFitProofs.v
theories/MeasCalFidProofs.v
theories/MeasCalFilterProofs.v
theories/MeasCalTensorProofs.v
theories/MeasCalSubsetProofs.v
theories/MeasCalProperties.v
theories/RepCodeModel.v
theories/RepCodeSpec.v
theories/RepCodeCircProofs.v
theories/RepCodeFaultProofs.v
theories/RepCodeStringProofs.v
theories/RepCodeGraphProofs.v
theories/RepCodeMatchProofs.v
theories/RepCodeStatsProofs.v
theories/RepCodeContracts.v
theories/RepCodeProperties.v
theories/DihedralModel.v
theories/DihedralSpec.v
theories/DihedralPolyProofs.v
theories/DihedralValueProofs.v
theories/DihedralGroupProofs.v
theories/DihedralGateProofs.v
theories/DihedralDecompProofs.v
theories/DihedralAlgebraProofs.v
theories/DihedralSetProofs.v
theories/DihedralDictProofs.v
theories/DihedralProperties.v
theories/DihedralAnyProofs.v
theories/DihedralAnyProperties.v
theories/QSem.v
theories/Cyc.v
theories/GateMat.v
theories/PyStr.v
theories/ResultFacts.v
theories/RBSeqModel.v
theories/RBSeqSpec.v
theories/RBSeqProofs.v
theories/RBSeqActProofs.v
theories/RBSeqRunProofs.v
theories/RBSeqTopProofs.v
theories/RBSeqIdProofs.v
theories/RBSeqDihProofs.v
theories/RBSeqFinalProofs.v
theories/RBSeqProperties.v
theories/RBUtilsModel.v
theories/RBUtilsSpec.v
theories/RBUtilsProofs.v
theories/RBUtilsProperties.v
theories/RBErrModel.v
theories/RBErrSpec.v
theories/RBErrProofs.v
theories/RBErrCohProofs.v
theories/RBErrProperties.v
theories/RBFitModel.v
theories/RBFitSpec.v
theories/RBFitProofs.v
theories/RBPurProofs.v
theories/RBFitProperties.v
theories/QcFacts.v
theories/ExpvalModel.v
theories/ExpvalSpec.v
theories/ExpvalProofs.v
theories/ExpvalVecProofs.v
theories/ExpvalTensProofs.v
theories/ExpvalGammaProofs.v
theories/ExpvalCompProofs.v
theories/ExpvalCalProofs.v
theories/ExpvalMainProofs.v
theories/ExpvalProperties.v
theories/CtmpModel.v
theories/CtmpSpec.v
theories/CtmpExpProofs.v
theories/CtmpProofs.v
theories/CtmpMainProofs.v
theories/CtmpFitProofs.v
theories/CtmpProperties.v
theories/StdGates.v
theories/AccModel.v
theories/AccSpec.v
theories/AccFitSpec.v
theories/AccLayerProofs.v
theories/AccQotpProofs.v
theories/AccProbProofs.v
theories/AccTrapProofs.v
theories/AccFitProofs.v
theories/AccProperties.v
theories/EntModel.v
theories/EntSpec.v
theories/EntGhzProofs.v
theories/EntProbProofs.v
theories/EntMqcProofs.v
theories/EntParityProofs.v
theories/EntTierProofs.v
theories/EntLayoutProofs.v
theories/EntOrderSpec.v
theories/EntOrderProofs.v
theories/EntProperties.v
theories/QVModel.v
theories/QVSpec.v
theories/QVHeavyProofs.v
theories/QVFitProofs.v
theories/QVMeanProofs.v
theories/QVErfProofs.v
theories/EmbedProofs.v
theories/QVCircProofs.v
theories/QVProperties.v
theories/TomoModel.v
theories/TomoSpec.v
theories/TomoNameProofs.v
theories/TomoCircProofs.v
theories/GstModel.v
theories/GstSpec.v
theories/GstCircProofs.v
theories/TomoFitModel.v
theories/TomoFitSpec.v
theories/TomoLayerProofs.v
theories/TomoTensorProofs.v
theories/TomoBasisProofs.v
theories/TomoBornProofs.v
theories/TomoSiteProofs.v
theories/TomoDataProofs.v
theories/TomoCompleteProofs.v
theories/TomoFitProofs.v
theories/LinInv.v
theories/TomoPsdSpec.v
theories/TomoPsdProofs.v
theories/TomoPtrSpec.v
theories/TomoPtrProofs.v
theories/TomoPoolSpec.v
theories/TomoPoolProofs.v
theories/TomoTupleProofs.v
theories/TomoHistProofs.v
theories/TomoExample.v
theories/TomoProperties.v
theories/GstInvSpec.v
theories/GstInvProofs.v
theories/GstProperties.v
theories/CharModel.v
theories/CharSpec.v
theories/CharProdProofs.v
theories/CharCircProofs.v
theories/CharIdealProofs.v
theories/CharCalProofs.v
theories/CharDataProofs.v
theories/CharEndProofs.v
theories/CharFitProofs.v
theories/CharProperties.v
theories/DiscModel.v
theories/DiscSpec.v
theories/DiscProofs.v
theories/DiscProperties.v
theories/LogModel.v
theories/LogSpec.v
theories/LogTimeProofs.v
theories/LogReadProofs.v
theories/LogFileProofs.v
theories/LogRunProofs.v
theories/LogConfProofs.v
theories/LogParseProofs.v
theories/LogProperties.v
theories/GstOptModel.v
theories/GstOptSpec.v
theories/GstPauliProofs.v
theories/GstEncProofs.v
theories/GstConsProofs.v
theories/GstFitProofs.v
theories/GstGaugeProofs.v
theories/GstCaseProofs.v
theories/GstLimitProofs.v
theories/GstStateProofs.v
theories/GstOptProperties.v
theories/CharNoiseSpec.v
theories/CharEstModel.v
theories/CharNoiseProofs.v
theories/CharNoiseLawProofs.v
theories/CharEstProofs.v
theories/CharNoiseEndProofs.v
theories/CharNoiseProperties.v
theories/IQModel.v
theories/IQSpec.v
theories/IQProofs.v
theories/IQProjProofs.v
theories/IQDataProofs.v
theories/IQFitProofs.v
theories/IQPoolProofs.v
theories/IQProperties.v
theories/PulseModel.v
theories/PulseSpec.v
theories/PulseGateProofs.v
theories/PulseMapProofs.v
theories/PulseSchedProofs.v
theories/CalSpec.v
theories/CalProofs.v
theories/CalProperties.v
theories/RBEstModel.v
theories/RBEstSpec.v
theories/RBNoiseProofs.v
theories/RBEstProofs.v
theories/RBEst2Proofs.v
theories/RBEstProperties.v
theories/CvxModel.v
theories/CvxSpec.v
theories/CvxProofs.v
theories/Cvx2Proofs.v
theories/CvxProperties.v
theories/EntFidModel.v
theories/EntFidSpec.v
theories/EntFidProofs.v
theories/EntFid2Proofs.v
theories/EntFid3Proofs.v
theories/EntFidProperties.v
theories/MeasLsqModel.v
theories/MeasLsqSpec.v
theories/MeasLsqProofs.v
theories/MeasLsq2Proofs.v
theories/MeasLsq3Proofs.v
theories/MeasLsq4Proofs.v
theories/MeasLsqProperties.v
theories/GuessModel.v
theories/GuessSpec.v
theories/GuessProofs.v
theories/Guess2Proofs.v
theories/GuessProperties.v
theories/PulseReadModel.v
theories/PulseReadSpec.v
theories/PulseReadProofs.v
theories/PulseReadProperties.v
theories/ShotsSpec.v
theories/ShotsProofs.v
theories/Shots2Proofs.v
theories/ShotsProperties.v
theories/SuppProofs.v
theories/SuppLogProofs.v
theories/SuppProperties.v
theories/DihedralMatModel.v
theories/DihedralMatSpec.v
theories/DihedralMatProofs.v
theories/DihedralMatProperties.v
theories/RBEndSpec.v
theories/RBEndProofs.v
theories/RBEndDihSpec.v
theories/RBEndDihProofs.v
theories/RBEndProperties.v
theories/DihStrModel.v
theories/DihStrSpec.v
theories/DihStrProofs.v
theories/DihStrProperties.v
theories/AccErrSpec.v
theories/AccErrProofs.v
theories/AccErrTrapProofs.v
theories/AccErrShapeProofs.v
theories/AccErrNoisyProofs.v
theories/AccErrMainProofs.v
theories/AccErrRunProofs.v
theories/AccErrProperties.v
theories/AccCredProofs.v
theories/AccCredProperties.v
theories/AccConfSpec.v
theories/AccConfProofs.v
theories/AccExpProofs.v
theories/AccHoefProofs.v
theories/AccConfProperties.v
theories/VersionModel.v
theories/VersionSpec.v
theories/VersionProofs.v
theories/VersionProperties.v
