-Q theories Verif
theories/Py.v
theories/Spec.v
theories/DagModel.v
theories/TopoProofs.v
theories/StateProofs.v
theories/ReachProofs.v
theories/CoreProofs.v
theories/PropertiesDag.v
theories/OrderProofs.v
theories/QueryProofs.v
theories/PropertiesQuery.v
theories/SpecDsep.v
theories/DsepModel.v
theories/WalkProofs.v
theories/DsepProofs.v
theories/MarkovProofs.v
theories/ImapProofs.v
theories/UGraphModel.v
theories/UGraphProofs.v
theories/MoralProofs.v
theories/PropertiesDsep.v
theories/SpecMec.v
theories/PdagModel.v
theories/PdagProofs.v
theories/ProtProofs.v
theories/CpdagProofs.v
theories/EquivProofs.v
theories/MeekProofs.v
theories/MecProofs.v
theories/PropertiesMec.v
theories/SpecEnum.v
theories/EnumModel.v
theories/ToDagProofs.v
theories/AllDagsProofs.v
theories/ImsetProofs.v
theories/PropertiesEnum.v
theories/SpecCompare.v
theories/CompareModel.v
theories/ShdProofs.v
theories/CompareProofs.v
theories/MatProofs.v
theories/PropertiesCompare.v
theories/SpecIntervene.v
theories/InterveneModel.v
theories/InterveneProofs.v
theories/PropertiesIntervene.v
theories/SpecMixed.v
theories/AncestralModel.v
theories/AncestralState.v
theories/AncestralProofs.v
theories/AncestralCopy.v
theories/PropertiesAncestral.v
theories/MWalkProofs.v
theories/MsepModel.v
theories/MsepProofs.v
theories/PropertiesMsep.v
theories/MagModel.v
theories/MagProofs.v
theories/InduceProofs.v
theories/MaxProofs.v
theories/GlobalProofs.v
theories/PropertiesMag.v
theories/MagMatModel.v
theories/MagMatProofs.v
theories/PropertiesMagMat.v
theories/MargModel.v
theories/MargProofs.v
theories/MargRun.v
theories/MargOld.v
theories/PropertiesMarg.v
theories/UtilModel.v
theories/UtilProofs.v
theories/PropertiesUtil.v
theories/SemiModel.v
theories/PropertiesSemi.v
theories/RandModel.v
theories/RandProofs.v
theories/PropertiesRand.v
theories/QMatModel.v
theories/QMatProofs.v
theories/SpecLin.v
theories/LinProofs.v
theories/SemProofs.v
theories/GaussModel.v
theories/GaussProofs.v
theories/GaussLoops.v
theories/PropertiesGauss.v
theories/PropertiesGauss2.v
theories/GaussLinModel.v
theories/InvProofs.v
theories/PartialProofs.v
theories/SchurProofs.v
theories/LdlProofs.v
theories/PrecProofs.v
theories/GgmProofs.v
theories/PropertiesLin.v
theories/DiscreteModel.v
theories/DiscreteSampleModel.v
theories/SpecDiscrete.v
theories/DiscreteProofs.v
theories/DiscreteElim.v
theories/PropertiesDiscrete.v
theories/DiscreteNew.v
theories/PropertiesDiscrete2.v
theories/SampleProofs.v
theories/PropertiesDiscrete3.v
theories/PropertiesDiscrete4.v
theories/PropertiesDiscrete5.v
theories/ChickProofs.v
theories/ChickLift.v
theories/SpecChick.v
theories/ChickModel.v
theories/ChickOps.v
theories/PropertiesChick.v
theories/HeapModel.v
theories/HeapProofs.v
theories/PropertiesHeap.v
theories/SpecMagMec.v
theories/MagMecProofs.v
theories/MagMecCore.v
theories/MagMecMain.v
theories/MagMecNec.v
theories/MagMarkProofs.v
theories/MagLegitProofs.v
theories/MagMecModel.v
theories/MagDiscProofs.v
theories/MagEquivProofs.v
theories/MagChangeProofs.v
theories/MagAllProofs.v
theories/PropertiesMagMec.v
theories/PdagMutModel.v
theories/PdagMutProofs.v
theories/PdagIcpProofs.v
theories/PropertiesPdag.v
theories/QcTac.v
theories/DiscreteFitModel.v
theories/SpecFit.v
theories/FitProofs.v
theories/PropertiesFit.v
theories/GaussFitModel.v
theories/SpecGaussFit.v
theories/GaussFitProofs.v
theories/PropertiesGaussFit.v
theories/RandParamModel.v
theories/SpecRandParam.v
theories/RandParamProofs.v
theories/PropertiesRandParam.v
theories/MagTripleModel.v
theories/SpecMagTriple.v
theories/MagTripleProofs.v
theories/MagTripleMain.v
theories/PropertiesMagTriple.v
theories/MagImapModel.v
theories/SpecMagImap.v
theories/MagRemoveProofs.v
theories/MagImapProofs.v
theories/PropertiesMagImap.v
theories/ScmModel.v
theories/SpecScm.v
theories/ScmProofs.v
theories/PropertiesScm.v
theories/CamModel.v
theories/SpecCam.v
theories/CamProofs.v
theories/PropertiesCam.v
theories/RandFunModel.v
theories/SpecRandFun.v
theories/RandFunProofs.v
theories/PropertiesRandFun.v
theories/GaussIvModel.v
theories/SpecGaussIv.v
theories/GaussIvProofs.v
theories/PropertiesGaussIv.v
theories/SpecEif.v
theories/EifProofs.v
theories/EifModel.v
theories/EifRun.v
theories/PropertiesEif.v
theories/ConvModel.v
theories/ConvProofs.v
theories/PropertiesConv.v
theories/TorchModel.v
theories/PropertiesTorch.v
theories/CyclicModel.v
theories/CyclicProofs.v
theories/PropertiesCyclic.v
theories/DctModel.v
theories/SpecDct.v
theories/DctUf.v
theories/DctGraph.v
theories/DctTree.v
theories/DctProofs.v
theories/DctResid.v
theories/PropertiesDct.v
theories/DctRegModel.v
theories/DctReg.v
theories/PropertiesReg.v
theories/DctNewModel.v
theories/DctNew.v
theories/PropertiesDctNew.v
theories/PropertiesDsepKeys.v
theories/GaussNodeModel.v
theories/PropertiesGaussNode.v
theories/ImportanceModel.v
theories/SpecImportance.v
theories/ImportanceProofs.v
theories/PropertiesImportance.v
theories/GgmDagModel.v
theories/SpecGgmDag.v
theories/GgmDagProofs.v
theories/GgmDagRun.v
theories/PropertiesGgmDag.v
theories/PgmModel.v
theories/SpecPgm.v
theories/PropertiesPgm.v
theories/ClfModel.v
theories/SpecClf.v
theories/ClfProofs.v
theories/PropertiesClf.v
theories/PgmArrayModel.v
theories/PropertiesPgmArray.v
theories/IdFormulaModel.v
theories/SpecId.v
theories/PropertiesId.v
theories/CliqueModel.v
theories/SpecClique.v
theories/CliqueProofs.v
theories/PropertiesClique.v
theories/EifFullModel.v
theories/PropertiesEifFull.v
theories/GaussRoundModel.v
theories/PropertiesGaussRound.v
theories/CyclicOpsModel.v
theories/PropertiesCyclicOps.v
theories/SubIdModel.v
theories/PropertiesSubId.v
theories/PdagIoModel.v
theories/PropertiesPdagIo.v
theories/Imap34Model.v
theories/PropertiesImap34.v
theories/NormalModel.v
theories/NormalProofs.v
theories/PropertiesNormal.v
theories/PropertiesMut.v
theories/Util2Model.v
theories/PropertiesUtil2.v
theories/PropertiesIdProd.v
theories/PropertiesCanon.v
theories/PropertiesCount.v
theories/PropertiesCover.v
theories/PropertiesBetween.v
theories/CamEffectModel.v
theories/PropertiesCamEffect.v
theories/PropertiesGaussSet.v
theories/PropertiesIvCov.v
theories/PropertiesIvSoft.v
theories/PdfModel.v
theories/PropertiesPdf.v
theories/PropertiesIvOne.v
