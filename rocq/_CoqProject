-Q theories Verif
theories/Base.v
theories/BaseFacts.v
theories/LUModel.v
theories/LUSpec.v
theories/LUFacts.v
theories/LUFacts2.v
theories/LUFacts3.v
theories/LUFacts4.v
theories/LUFacts5.v
theories/PropLU.v
theories/ExLU.v
theories/SMap.v
theories/ObsModel.v
theories/ObsSpec.v
theories/ObsFacts.v
theories/PropObs.v
theories/ExObs.v
theories/FacModel.v
theories/FacSpec.v
theories/FacFacts.v
theories/PropFac.v
theories/ExFac.v
theories/LexModel.v
theories/LexSpec.v
theories/LexFacts.v
theories/PropLex.v
theories/ExLex.v
theories/ParModel.v
theories/ParSpec.v
theories/ParFacts.v
theories/PropPar.v
theories/ExPar.v
theories/CfgModel.v
theories/CfgSpec.v
theories/CfgFacts.v
theories/PropCfg.v
theories/ExCfg.v
theories/VecModel.v
theories/VecSpec.v
theories/VecFacts.v
theories/VecFacts2.v
theories/VecFacts3.v
theories/PropVec.v
theories/ExVec.v
theories/SpModel.v
theories/SpSpec.v
theories/SpFacts.v
theories/SpFacts2.v
theories/SpFacts3.v
theories/SpFacts4.v
theories/SpFacts5.v
theories/PropSp.v
theories/ExSp.v
theories/MapModel.v
theories/MapSpec.v
theories/MapFacts.v
theories/PropMap.v
theories/ExMap.v
theories/JacModel.v
theories/JacSpec.v
theories/JacFacts.v
theories/JacFacts2.v
theories/JacFacts3.v
theories/PropJac.v
theories/ExJac.v
theories/VOps.v
theories/NewtModel.v
theories/NewtSpec.v
theories/NewtFacts.v
theories/NewtFacts2.v
theories/NewtFacts3.v
theories/NewtFacts4.v
theories/NewtFacts5.v
theories/PropNewt.v
theories/ExNewt.v
theories/RkModel.v
theories/RkSpec.v
theories/RkFacts.v
theories/RkFacts2.v
theories/RkFacts3.v
theories/RkFacts4.v
theories/RkFacts5.v
theories/RkFacts6.v
theories/RkFacts7.v
theories/PropRk.v
theories/ExRk.v
theories/EvModel.v
theories/EvSpec.v
theories/EvFacts.v
theories/EvFacts2.v
theories/EvFacts3.v
theories/EvFacts4.v
theories/PropEv.v
theories/ExEv.v
theories/StepModel.v
theories/StepSpec.v
theories/StepFacts.v
theories/StepFacts2.v
theories/PropStep.v
theories/ExStep.v
theories/ExtModel.v
theories/ExtSpec.v
theories/ExtFacts.v
theories/ExtFacts2.v
theories/ExtFacts3.v
theories/ExtFacts4.v
theories/ExtFacts5.v
theories/PropExt.v
theories/ExExt.v
theories/SpFacts6.v
theories/NewtFacts6.v
theories/LUFacts6.v
theories/ImpModel.v
theories/ImpSpec.v
theories/ImpFacts.v
theories/ImpFacts2.v
theories/ImpFacts3.v
theories/ImpFacts4.v
theories/PropImp.v
theories/ExImp.v
theories/OrdSpec.v
theories/RosModel.v
theories/RosSpec.v
theories/RosFacts.v
theories/RosFacts2.v
theories/RosFacts3.v
theories/RosFacts4.v
theories/OrdFacts.v
theories/OrdFacts2.v
theories/RosFacts5.v
theories/RosFacts6.v
theories/RosFacts7.v
theories/PropRos.v
theories/ExRos.v
theories/UtilModel.v
theories/UtilSpec.v
theories/UtilFacts.v
theories/UtilFacts2.v
theories/UtilFacts3.v
theories/PropUtil.v
theories/ExUtil.v
theories/OutModel.v
theories/OutSpec.v
theories/OutFacts.v
theories/OutFacts2.v
theories/PropOut.v
theories/ExOut.v
theories/DrvModel.v
theories/DrvSpec.v
theories/DrvFacts.v
theories/DrvFacts2.v
theories/PropDrv.v
theories/ExDrv.v
theories/InitModel.v
theories/InitSpec.v
theories/InitFacts.v
theories/PropInit.v
theories/ExInit.v
theories/ModModel.v
theories/ModSpec.v
theories/ModFacts.v
theories/ModFacts2.v
theories/ModFacts3.v
theories/ModFacts4.v
theories/ModFacts5.v
theories/ModFacts6.v
theories/ModFacts7.v
theories/ModFacts8.v
theories/PropMod.v
theories/ExMod.v
theories/SlideModel.v
theories/SlideSpec.v
theories/SlideFacts.v
theories/PropSlide.v
theories/ExSlide.v
theories/ImpFacts5.v
theories/BroModel.v
theories/BroSpec.v
theories/BroFacts.v
theories/BroFacts2.v
theories/BroFacts3.v
theories/BroFacts4.v
theories/BroFacts5.v
theories/BroFacts6.v
theories/PropBro.v
theories/ExBro.v
theories/ConvSpec.v
theories/ConvFacts.v
theories/ConvFacts2.v
theories/ConvFacts3.v
theories/ConvFacts4.v
theories/ConvFacts5.v
theories/PropConv.v
theories/ExConv.v
theories/HighSpec.v
theories/HighFacts.v
theories/HighFacts2.v
theories/HighFacts3.v
theories/HighFacts4.v
theories/HighFacts5.v
theories/HighFacts6.v
theories/HighFacts7.v
theories/PropHigh.v
theories/ExHigh.v
theories/ModFacts9.v
theories/PersModel.v
theories/PersSpec.v
theories/PersFacts.v
theories/PersFacts2.v
theories/PersFacts3.v
theories/PersFacts4.v
theories/PropPers.v
theories/ExPers.v
theories/MoreFacts.v
theories/PropMore.v
theories/ExMore.v
theories/TimeModel.v
theories/TimeSpec.v
theories/TimeFacts.v
theories/TimeFacts2.v
theories/PropTime.v
theories/ExTime.v
theories/ImcSpec.v
theories/ImcFacts.v
theories/ImcFacts2.v
theories/ImcFacts3.v
theories/PropImc.v
theories/ExImc.v
theories/MoreFacts2.v
theories/PropMore2.v
theories/ExMore2.v
theories/XrkModel.v
theories/XrkSpec.v
theories/XrkFacts.v
theories/XrkFacts2.v
theories/XrkFacts3.v
theories/XrkFacts4.v
theories/XrkFacts5.v
theories/XrkFacts6.v
theories/XrkFacts7.v
theories/XrkFacts8.v
theories/PropXrk.v
theories/ExXrk.v
theories/More3Spec.v
theories/MoreFacts3.v
theories/MoreFacts4.v
theories/PropMore3.v
theories/ExMore3.v
theories/GraFacts.v
theories/GraFacts2.v
theories/PropGra.v
theories/ExGra.v
theories/RcvSpec.v
theories/RcvFacts.v
theories/RcvFacts2.v
theories/RcvFacts3.v
theories/RcvFacts4.v
theories/PropRcv.v
theories/ExRcv.v
theories/RexFacts.v
theories/RexFacts2.v
theories/PropRex.v
theories/ExRex.v
theories/CjSpec.v
theories/CjFacts.v
theories/MoreFacts5.v
theories/PropMore4.v
theories/ExMore4.v
theories/FpSpec.v
theories/FpFacts.v
theories/FpFacts2.v
theories/FpFacts3.v
theories/FpFacts4.v
theories/FpFacts5.v
theories/FpFacts6.v
theories/PropFp.v
theories/ExFp.v
theories/LufModel.v
theories/LufSpec.v
theories/LufFacts.v
theories/LufFacts2.v
theories/LufFacts3.v
theories/LufFacts4.v
theories/PropLuf.v
theories/ExLuf.v
theories/RopSpec.v
theories/RopFacts.v
theories/RopFacts2.v
theories/PropRop.v
theories/ExRop.v
theories/JrnSpec.v
theories/JrnFacts.v
theories/PropJrn.v
theories/ExJrn.v
theories/IfpSpec.v
theories/IfpFacts.v
theories/IfpFacts2.v
theories/IfpFacts3.v
theories/IfpFacts4.v
theories/PropIfp.v
theories/ExIfp.v
theories/RetFacts.v
theories/PropRet.v
theories/ExRet.v
theories/RetFacts2.v
theories/PropRet2.v
theories/ExRet2.v
theories/IfpFacts5.v
theories/IfpFacts6.v
theories/PropIfp2.v
theories/ExIfp2.v
theories/GrfSpec.v
theories/GrfFacts.v
theories/GrfFacts2.v
theories/GrfFacts3.v
theories/GrfFacts4.v
theories/PropGrf.v
theories/ExGrf.v
theories/IeeeSpec.v
theories/IeeeFacts.v
theories/IeeeFacts2.v
theories/IeeeFacts3.v
theories/IeeeFacts4.v
theories/PropIeee.v
theories/ExIeee.v
theories/LinFacts.v
theories/ExLin.v
theories/IeeeFacts5.v
theories/IeeeFacts6.v
theories/IeeeFacts7.v
theories/PropGrd.v
theories/ExGrd.v
theories/DomSpec.v
theories/DomFacts.v
theories/PropDom.v
theories/ExDom.v
theories/LudSpec.v
theories/LufFacts5.v
theories/LufFacts6.v
theories/PropLud.v
theories/ExLud.v
theories/VdSpec.v
theories/VdFacts.v
theories/PropVd.v
theories/ExVd.v
theories/VdFacts2.v
theories/PropVd2.v
theories/ExVd2.v
theories/LudbFacts.v
theories/PropLudb.v
theories/ExLudb.v
theories/LudbSpec.v
theories/LudbFacts2.v
theories/LudbFacts3.v
theories/LudbFacts4.v
theories/PropLudb2.v
theories/ExLudb2.v
theories/InitFacts2.v
theories/PropInit2.v
theories/ExInit2.v
theories/VdFacts3.v
theories/PropVd3.v
theories/ExVd3.v
theories/VdFacts4.v
theories/VdFacts5.v
theories/PropVd4.v
theories/ExVd4.v
