-Q theories Verif

theories/Base.v
theories/BaseFacts.v
theories/MNetwork.v
theories/SNetwork.v
theories/PNetwork.v
theories/PNetwork2.v
theories/WNetwork.v
theories/TNetwork.v
theories/MTarjan.v
theories/STarjan.v
theories/PTarjan.v
theories/TTarjan.v
theories/Arith64.v
theories/RFacts.v
theories/MRandom.v
theories/SRandom.v
theories/PRandom.v
theories/PReservoir.v
theories/WRandom.v
theories/TRandom.v
theories/MNetGen.v
theories/PNetGen.v
theories/PLattice.v
theories/TNetGen.v
theories/MText.v
theories/SText.v
theories/PText.v
theories/MNetFile.v
theories/PNetFile.v
theories/MAgents.v
theories/PAgents.v
theories/TFiles.v
theories/TColumns.v
theories/SConverge.v
theories/PConverge.v
theories/PConverge2.v
theories/TConverge.v
theories/MDeGroot.v
theories/SDeGroot.v
theories/PDeGroot.v
theories/PConsensus.v
theories/TDeGroot.v
theories/MDeffuant.v
theories/SDeffuant.v
theories/PDeffuant.v
theories/PFloat.v
theories/TDeffuant.v
theories/PDeffuantV.v
theories/PDeffuantW.v
theories/TDeffuantV.v
theories/MDist.v
theories/MActivity.v
theories/SActivity.v
theories/PActStep.v
theories/PActNet.v
theories/PActIter.v
theories/PActMean.v
theories/PActIter2.v
theories/PActInit.v
theories/PActThm.v
theories/PActSym.v
theories/PActReal.v
theories/POrder.v
theories/TActivity.v
theories/PActMean2.v
theories/TActivityR.v
theories/TMean.v
theories/SDist.v
theories/PDist.v
theories/PErfinv.v
theories/TDist.v
theories/MConfig.v
theories/SConfig.v
theories/PConfig.v
theories/TConfig.v
theories/MSimulation.v
theories/SSimulation.v
theories/PSimulation.v
theories/PSimulation2.v
theories/PQuiet.v
theories/TSimulation.v
theories/TSimulation2.v
theories/SRestart.v
theories/PRestart.v
theories/PRestart2.v
theories/WText64.v
theories/TRestart.v
theories/SProb.v
theories/PProb.v
theories/PProb2.v
theories/PProb3.v
theories/PProb4.v
theories/PProb5.v
theories/TProb.v
theories/PProb6.v
theories/PProb7.v
theories/PProb8.v
theories/PProb9.v
theories/TProb2.v
theories/SProb2.v
theories/PProb10.v
theories/PProb11.v
theories/TProb3.v
theories/SLayout.v
theories/TLayout.v
theories/SGauss.v
theories/PGauss.v
theories/PPoly.v
theories/PErfNum.v
theories/PErfAcc.v
theories/PErfAcc2.v
theories/PErfAcc3.v
theories/PErfAcc4.v
theories/TGauss.v
theories/SSteady.v
theories/PSteady.v
theories/PSteady2.v
theories/PSteady3.v
theories/TSteady.v
theories/TSteady2.v
theories/SRelax.v
theories/PRelax.v
theories/PTanh.v
theories/PRelax2.v
theories/PTanh2.v
theories/PRelax3.v
theories/WRelax.v
theories/TRelax.v
theories/TConsensus.v
theories/SInertia.v
theories/PInertia.v
theories/POscillator.v
theories/PInertia2.v
theories/PInertia3.v
theories/TInertia.v
theories/SRounding.v
theories/PRounding.v
theories/PRounding2.v
theories/PRounding3.v
theories/PRounding4.v
theories/TRounding.v
theories/SFinite.v
theories/PFinite.v
theories/PFinite2.v
theories/PFinite3.v
theories/PFinite4.v
theories/TFinite.v
theories/SLaw.v
theories/PLaw.v
theories/PLaw2.v
theories/PLaw3.v
theories/PLaw4.v
theories/PLaw5.v
theories/PLaw6.v
theories/TLaw.v
theories/SVote.v
theories/PVote.v
theories/TVote.v
theories/TInertia2.v
theories/SSame.v
theories/PSame.v
theories/TSame.v
theories/TColumns2.v
theories/SOde.v
theories/TOde.v
theories/SOde2.v
theories/TOde2.v
theories/SEquiv.v
theories/TEquiv.v
theories/PTaylor.v
theories/PRk4.v
theories/TOrder.v
theories/PVerlet.v
theories/TOrder2.v
theories/SDefSym.v
theories/PDefSym.v
theories/TDefSym.v
theories/SRenum.v
theories/PRenum.v
theories/TRenum.v
theories/SRelabel.v
theories/PRelabel.v
theories/TRelabel.v
theories/SNetNumber.v
theories/PNetNumber.v
theories/TNetNumber.v
theories/SNetRun.v
theories/PNetRun.v
theories/TNetRun.v
theories/SEdge.v
theories/PEdge.v
theories/TEdge.v
theories/SInertiaRun.v
theories/PInertiaRun.v
theories/TInertiaRun.v
theories/SDegree.v
theories/PDegree.v
theories/TDegree.v
theories/SCopula.v
theories/TCopula.v
