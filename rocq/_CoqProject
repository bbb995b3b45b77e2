-Q theories Verif
theories/Num.v
theories/FilterModel.v
theories/FilterProofs.v
theories/FilterProps.v
theories/CacheModel.v
theories/CacheSpec.v
theories/CacheProofs.v
theories/CacheHist.v
theories/CacheProps.v
theories/SmartPtrModel.v
theories/SmartPtrSpec.v
theories/SmartPtrProofs.v
theories/SmartPtrTop.v
theories/SmartPtrProps.v
theories/OptText.v
theories/OptModel.v
theories/OptSpec.v
theories/OptProofs.v
theories/OptFile.v
theories/OptProps.v
theories/CsrModel.v
theories/CsrSpec.v
theories/CsrProofs.v
theories/CsrFinish.v
theories/CsrFull.v
theories/CsrProps.v
theories/PerturbModel.v
theories/PerturbSpec.v
theories/PerturbProofs.v
theories/PerturbLevels.v
theories/PerturbDegen.v
theories/PerturbProps.v
theories/ConvModel.v
theories/ConvSpec.v
theories/ConvProofs.v
theories/ConvProps.v
theories/MuModel.v
theories/MuSpec.v
theories/MuProofs.v
theories/MuProps.v
theories/VecModel.v
theories/VecSpec.v
theories/VecProofs.v
theories/VecLift.v
theories/VecReal.v
theories/VecRed.v
theories/VecNum.v
theories/VecFresh.v
theories/VecProps.v
theories/VecFindings.v
theories/LsModel.v
theories/LsSpec.v
theories/LsProofs.v
theories/LsHist.v
theories/LsReset.v
theories/LsBack.v
theories/LsFind.v
theories/LsTerm.v
theories/LsRun.v
theories/LsLoop.v
theories/LsProps.v
theories/ExpModel.v
theories/ExpSpec.v
theories/ExpProofs.v
theories/ExpProps.v
theories/AdModel.v
theories/AdSpec.v
theories/AdProofs.v
theories/AdMaps.v
theories/AdJac.v
theories/AdProps.v
theories/AdFeas.v
theories/AdMult.v
theories/AdEvalModel.v
theories/AdEvalSpec.v
theories/AdEvalProofs.v
theories/AdEvalProps.v
theories/AdEvalFind.v
theories/StatModel.v
theories/StatSpec.v
theories/StatProps.v
theories/InitModel.v
theories/InitSpec.v
theories/InitProofs.v
theories/InitNum.v
theories/InitReal.v
theories/InitProps.v
theories/ScalModel.v
theories/ScalSpec.v
theories/ScalProofs.v
theories/ScalErr.v
theories/ScalGrad.v
theories/ScalProps.v
theories/JrnModel.v
theories/JrnSpec.v
theories/JrnProofs.v
theories/JrnWrap.v
theories/JrnProps.v
theories/LmModel.v
theories/LmSpec.v
theories/LmProofs.v
theories/LmCompact.v
theories/LmRun.v
theories/LmChol.v
theories/LmSr1.v
theories/LmProps.v
theories/CIModel.v
theories/CISpec.v
theories/CIProofs.v
theories/CIProps.v
theories/MatModel.v
theories/MatSpec.v
theories/MatVec.v
theories/MatLeaf.v
theories/MatProofs.v
theories/MatFused.v
theories/MatProps.v
theories/TripModel.v
theories/TripSpec.v
theories/TripBlit.v
theories/TripProofs.v
theories/TripReal.v
theories/TripProps.v
theories/CQModel.v
theories/CQSpec.v
theories/CQVec.v
theories/CQProofs.v
theories/CQFuns.v
theories/CQSlack.v
theories/CQProps.v
theories/CQAccModel.v
theories/CQAccProofs.v
theories/CQAccProps.v
theories/PdModel.v
theories/PdSpec.v
theories/PdAlg.v
theories/PdProofs.v
theories/PdLoop.v
theories/PdSearch.v
theories/PdProps.v
theories/AugModel.v
theories/AugSpec.v
theories/AugProofs.v
theories/AugLs.v
theories/AugProps.v
theories/RstModel.v
theories/RstSpec.v
theories/RstProofs.v
theories/RstNlp.v
theories/RstProps.v
theories/AmuModel.v
theories/AmuSpec.v
theories/AmuProofs.v
theories/AmuProofs2.v
theories/AmuProofs3.v
theories/AmuProps.v
theories/AmuProps2.v
theories/AmuProps3.v
theories/QfModel.v
theories/QfSpec.v
theories/QfProofs.v
theories/QfProofs2.v
theories/QfProofs3.v
theories/QfProps.v
theories/TsModel.v
theories/TsSpec.v
theories/TsProofs.v
theories/Ma27Model.v
theories/Ma27Proofs.v
theories/TsProps.v
theories/TredModel.v
theories/TredSpec.v
theories/TredProofs.v
theories/TredProps.v
theories/WarmModel.v
theories/WarmSpec.v
theories/WarmProofs.v
theories/WarmProps.v
theories/BremModel.v
theories/BremSpec.v
theories/BremProofs.v
theories/BremProps.v
