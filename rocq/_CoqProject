-Q theories Verif
theories/Base.v
theories/QcTac.v
theories/Spec.v
theories/SpecSim.v
theories/SpecLin.v
theories/LenT.v
theories/Lengths.v
theories/FM.v
theories/Subspace.v
theories/IET.v
theories/LenInst.v
theories/Sqrt2.v
theories/Cubic.v
theories/Api.v
theories/ZorichProof.v
theories/Dyn.v
theories/Saddle.v
theories/ReduceProof.v
theories/SubspaceProof.v
theories/Saf.v
theories/Bosh.v
theories/Path.v
theories/SpecRank.v
theories/Endless.v
theories/Rank2.v
theories/RankEnd.v
theories/Direct.v
theories/Similar.v
theories/InduceProof.v
theories/InduceCons.v
theories/World.v
theories/Seq.v
theories/SelfSim.v
theories/Detect.v
theories/Fixtures.v
theories/Decomp.v
theories/DecompSim.v
theories/DecompInv.v
theories/DecompNav.v
theories/DecompRef.v
theories/DecompStep.v
theories/DecompAll.v
theories/DecompEnds.v
theories/SpecDec.v
theories/DecompDyn.v
theories/DecompCons.v
theories/DecompMore.v
theories/Fuel.v
theories/DecApi.v
theories/PerimProof.v
theories/DecompBudget.v
theories/RankApi.v
theories/Rank.v
theories/RankDec.v
theories/SubApi.v
theories/SubApiProof.v
theories/ClaimsIET.v
theories/PropIET.v
theories/ClaimsSaf.v
theories/PropSaf.v
theories/ClaimsSub.v
theories/PropSub.v
theories/ClaimsInduce.v
theories/PropInduce.v
theories/DecFixtures.v
theories/ClaimsDecomp.v
theories/PropDecomp.v
theories/Misc.v
theories/ClaimsMisc.v
theories/PropMisc.v
theories/MachineInt.v
theories/MachineProof.v
theories/Overflow.v
theories/ClaimsMachine.v
theories/PropMachine.v
theories/Ptr.v
theories/PtrProof.v
theories/ClaimsPtr.v
theories/PropPtr.v
theories/SpecLengths.v
theories/ClaimsLengths.v
theories/PropLengths.v
theories/Print.v
theories/PrintProof.v
theories/ClaimsPrint.v
theories/PropPrint.v
theories/RankFixtures.v
theories/ClaimsRank.v
theories/PropRank.v
theories/Twin.v
theories/TwinDec.v
theories/InjApi.v
theories/InjRel.v
theories/InjStep.v
theories/InjHist.v
theories/InjMore.v
theories/InjCheck.v
theories/InjFixtures.v
theories/ClaimsInject.v
theories/PropInject.v
theories/Focus.v
theories/FocusDec.v
theories/OrderApi.v
theories/OrderProof.v
theories/OrderRun.v
theories/ClaimsOrder.v
theories/PropOrder.v
theories/Dual.v
theories/Mixed.v
theories/Coord.v
theories/Ratio.v
theories/RatioIet.v
theories/RatioInduce.v
theories/RatioInv.v
theories/RatioLink.v
theories/RatioDec.v
theories/RatioApi.v
theories/RatioRun.v
theories/ClaimsRatio.v
theories/PropRatio.v
theories/FloorDiv.v
theories/FloorDivProof.v
theories/ClaimsFloorDiv.v
theories/PropFloorDiv.v
theories/MixedApi.v
theories/MixedUniv.v
theories/MixedRun.v
theories/Renf.v
theories/RenfApi.v
theories/RenfProof.v
theories/ClaimsMixed.v
theories/PropMixed.v
theories/ClaimsRenf.v
theories/PropRenf.v
theories/ClaimsCopy.v
theories/PropCopy.v
theories/RenApi.v
theories/Ren.v
theories/RenDec.v
theories/ClaimsRen.v
theories/PropRen.v
theories/SpecTower.v
theories/SpecGroup.v
theories/Tower.v
theories/LenGroup.v
theories/ClaimsTower.v
theories/PropTower.v
theories/SpecDense.v
theories/DenseApi.v
theories/Keane.v
theories/Ends.v
theories/EndsDec.v
theories/SimKeane.v
theories/KeaneFixtures.v
theories/ClaimsKeane.v
theories/PropKeane.v
theories/InjEndless.v
theories/Py.v
theories/PyProof.v
theories/ClaimsPy.v
theories/PropPy.v
theories/RestoreApi.v
theories/Restore.v
theories/ClaimsRestore.v
theories/PropRestore.v
theories/Own.v
theories/OwnApi.v
theories/OwnProof.v
theories/ClaimsOwn.v
theories/PropOwn.v
theories/SpecIndep.v
theories/Indep.v
theories/IndepDec.v
theories/ClaimsIndep.v
theories/PropIndep.v
theories/SpecGlue.v
theories/Glue.v
theories/GlueDec.v
theories/GlueApi.v
theories/GlueBnd.v
theories/GluePoly.v
theories/ClaimsGlue.v
theories/PropGlue.v
theories/Sqrt3.v
theories/ClaimsTwist.v
theories/PropTwist.v
theories/GlueConn.v
theories/ConnApi.v
theories/ClaimsConn.v
theories/PropConn.v
theories/Callback.v
theories/CallApi.v
theories/ClaimsCall.v
theories/PropCall.v
theories/ClaimsStale.v
theories/PropStale.v
theories/LensApi.v
theories/ClaimsLens.v
theories/PropLens.v
theories/Fault.v
theories/FaultProof.v
theories/ClaimsFault.v
theories/PropFault.v
theories/FaultDec.v
theories/FaultDecProof.v
theories/FaultDecLeft.v
theories/ClaimsFaultDec.v
theories/PropFaultDec.v
theories/Par.v
theories/ParApi.v
theories/ParProof.v
theories/ClaimsPar.v
theories/PropPar.v
theories/FinalApi.v
theories/Final.v
theories/ClaimsFinal.v
theories/PropFinal.v
theories/SpecCanon.v
theories/Canon.v
theories/Pieces.v
theories/CanonApi.v
theories/ClaimsCanon.v
theories/PropCanon.v
theories/ShareApi.v
theories/Share.v
theories/ClaimsShare.v
theories/PropShare.v
theories/RepoTests.v
theories/Back.v
theories/FoundApi.v
theories/ClaimsFound.v
theories/PropFound.v
theories/SpecSides.v
theories/SidesApi.v
theories/Sides.v
theories/ClaimsSides.v
theories/PropSides.v
theories/SpecRim.v
theories/Rim.v
theories/ClaimsRim.v
theories/PropRim.v
theories/SpecTime.v
theories/Period.v
theories/ClaimsPeriod.v
theories/PropPeriod.v
theories/Meet.v
theories/ClaimsMeet.v
theories/PropMeet.v
