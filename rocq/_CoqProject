-Q theories Verif
theories/Base.v
theories/MCombinatorics.v
theories/CombPerm.v
theories/Matching.v
theories/Pfaffian.v
theories/Bipartite.v
theories/CombFacts.v
theories/PropComb.v
theories/ArrC.v
theories/MLib.v
theories/JW.v
theories/OpFam.v
theories/FermAlg.v
theories/LibFacts.v
theories/LibFacts2.v
theories/LibFacts3.v
theories/Expm.v
theories/ExpmAd.v
theories/PropLib1.v
theories/PropLib2.v
theories/PropLib3.v
theories/PropLib4.v
theories/Spectral.v
theories/MUtils.v
theories/PropUtils1.v
theories/PropUtils2.v
theories/MClean.v
theories/PropClean.v
theories/RealC.v
theories/Info.v
theories/MDist.v
theories/PropDist1.v
theories/PropDist2.v
theories/PropDist3.v
theories/Skew.v
theories/PropDist4.v
theories/PropDist5.v
theories/MRandom.v
theories/RndFacts.v
theories/PropRandom1.v
theories/PropRandom2.v
theories/PropRandom3.v
theories/PropRandom4.v
theories/PropRandom5.v
theories/PropRandom6.v
theories/MGraph.v
theories/GraphBrute.v
theories/PropGraph1.v
theories/PropGraph2.v
theories/GraphBfs.v
theories/PropGraph3.v
theories/PropGraph4.v
theories/PropGraph5.v
theories/Planar.v
theories/Fkt.v
theories/GraphMap.v
theories/GraphDual.v
theories/GraphPfo.v
theories/PlaneCheck.v
theories/PropGraph6.v
theories/GraphCount.v
theories/MGraphR.v
theories/PropGraph7.v
theories/PropGraph8.v
theories/PropGraph9.v
theories/MEigh.v
theories/EighFacts.v
theories/PropEigh1.v
theories/PropEigh2.v
theories/PropEigh3.v
theories/PropEigh4.v
theories/PropEigh5.v
theories/PropGraph10.v
theories/MPlot.v
theories/PropPlot.v
theories/MDraw.v
theories/PropDraw.v
theories/Limits.v
theories/RExp.v
theories/NormalCalc.v
theories/RLog.v
theories/PropExpm.v
theories/PfExpand.v
theories/PropThermal.v
theories/Wick.v
theories/PropWick.v
theories/PropWick2.v
theories/PropThermal2.v
theories/ManyBody.v
theories/PropModes.v
theories/PropGraph11.v
theories/PropMatchgate.v
theories/PropDocs.v
theories/PropDocs2.v
theories/PropKitaev.v
theories/MPdf.v
theories/PropPdf.v
theories/MFormat.v
theories/PropFormat.v
theories/MEmbed.v
theories/PropEmbed.v
theories/Info2.v
theories/PropDist6.v
theories/PropDist7.v
theories/PropDist8.v
theories/PropDist9.v
theories/PropDist10.v
theories/PropGraph12.v
theories/PropDist11.v
theories/PropDist12.v
theories/PauliFacts.v
theories/PropDist13.v
theories/PropDist14.v
theories/PropGround.v
theories/HfExpand.v
theories/PropComb2.v
theories/PropZero.v
theories/PropCont.v
theories/MPrint.v
theories/PropPrint1.v
theories/PropPrint2.v
theories/PropPrint3.v
theories/PropPrint4.v
theories/MInt.v
theories/PropInt.v
theories/MDtype.v
theories/PropDtype.v
theories/MFloat.v
theories/PropFloat.v
theories/PropFloat2.v
theories/MFloat2.v
theories/PropFloat3.v
theories/PropFloat4.v
theories/MGraphE.v
theories/PropGraph13.v
theories/MFloat3.v
theories/PropFloat5.v
theories/PropFloat6.v
theories/MDistF.v
theories/PropDistF.v
theories/MUtilsF.v
theories/PropUtilsF.v
theories/PropUtilsF2.v
theories/PropDistF2.v
theories/MDistG.v
theories/PropDistG.v
theories/PropDistG2.v
