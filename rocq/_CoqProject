-Q theories Verif
theories/Base.v
theories/Core.v
theories/Comb.v
theories/Closure.v
theories/Text.v
theories/Shift.v
theories/PropsA.v
theories/RepFacts.v
theories/ChainFacts.v
theories/PropsB.v
theories/Cache.v
theories/LitFacts.v
theories/Hoare.v
theories/Weak.v
theories/Runs.v
theories/Agree.v
theories/PropsC.v
theories/Cron.v
theories/CronSpec.v
theories/Calendar.v
theories/PropsD.v
theories/Uri.v
theories/UriSpec.v
theories/UriFacts.v
theories/UriComplete.v
theories/PropsE.v
theories/Json.v
theories/JsonSpec.v
theories/JsonFacts.v
theories/PropsF.v
theories/Toys.v
theories/ToysSpec.v
theories/ToysFacts.v
theories/PropsG.v
theories/Hocon.v
theories/HoconFacts.v
theories/HoconParse.v
theories/HoconLookup.v
theories/HoconResolve.v
theories/PropsH.v
theories/ChainRules.v
theories/Calc.v
theories/CalcSpec.v
theories/CalcFacts.v
theories/PropsI.v
theories/ToysParse.v
theories/ToysSyntax.v
theories/ToysParseSound.v
theories/ToysParseComplete.v
theories/PropsJ.v
theories/ToysPrint.v
theories/PropsK.v
theories/JsonAgree.v
theories/PropsL.v
theories/CronComplete.v
theories/CronSchedule.v
theories/CronLimit.v
theories/PropsM.v
theories/PropsN.v
theories/HoconRefs.v
theories/PropsO.v
theories/PropsP.v
theories/HoconSpec.v
theories/HoconComplete.v
theories/HoconDisplay.v
theories/HoconJson.v
theories/PropsQ.v
theories/UriV6.v
theories/UriStd.v
theories/PropsR.v
theories/Bench.v
theories/BenchFacts.v
theories/PropsS.v
theories/PropsT.v
theories/PropsU.v
theories/Reads.v
theories/HoconText.v
theories/HoconSound.v
theories/PropsV.v
theories/HoconNumber.v
theories/PropsW.v
theories/CacheSim.v
theories/CacheGrammars.v
theories/PropsX.v
theories/PropsY.v
theories/PropsZ.v
theories/PropsAA.v
theories/ToysTypes.v
theories/PropsAB.v
theories/HoconDots.v
theories/PropsAC.v
theories/UriGens.v
theories/PropsAD.v
theories/PropsAE.v
theories/PropsAF.v
theories/PropsAG.v
theories/TestsParser.v
theories/TestsCron.v
theories/TestsToys.v
theories/TestsHocon.v
theories/TestsUri.v
theories/ToysObject.v
theories/PropsAH.v
theories/PropsAI.v
theories/PropsAJ.v
theories/HoconConf.v
theories/HoconBuilt.v
theories/HoconStop.v
theories/PropsAK.v
theories/PropsAL.v
theories/Exchange.v
theories/PropsAM.v
theories/F64.v
theories/Measure.v
theories/MeasureJson.v
theories/MeasureCalc.v
theories/MeasureCount.v
theories/PropsAN.v
theories/PropsAO.v
theories/PropsAP.v
theories/MeasureCalcCount.v
theories/PropsAQ.v
theories/ToysShow.v
theories/PropsAR.v
theories/ToysNest.v
theories/PropsAS.v
theories/ToysSlow.v
theories/PropsAT.v
theories/HoconSlow.v
theories/PropsAU.v
theories/ErrorText.v
theories/PropsAV.v
theories/MeasureUri.v
theories/MeasureUriCount.v
theories/PropsAW.v
theories/MeasureCron.v
theories/PropsAX.v
theories/MeasureHocon.v
theories/MeasureHoconDeep.v
theories/MeasureHoconLow.v
theories/MeasureHoconAtoms.v
theories/MeasureHoconCount.v
theories/PropsAY.v
theories/PropsAZ.v
theories/Log.v
theories/LogCron.v
theories/PropsBA.v
theories/MeasureMarks.v
theories/MeasureToys.v
theories/MeasureToysDeep.v
theories/MeasureToysLow.v
theories/PropsBB.v
theories/MeasureToysAtoms.v
theories/MeasureToysCount.v
theories/CacheTime.v
theories/CacheTimeToys.v
theories/PropsBC.v
theories/CacheOnce.v
theories/CacheTidy.v
theories/ToysApart.v
theories/CacheTidyGrammars.v
theories/PropsBD.v
theories/CacheReuse.v
theories/PropsBE.v
theories/CacheAgain.v
theories/CacheAgainGrammars.v
theories/PropsBF.v
theories/LogToys.v
theories/PropsBG.v
theories/PropsBH.v
theories/LogCalc.v
theories/PropsBI.v
theories/PropsBJ.v
theories/LogCount.v
theories/PropsBK.v
