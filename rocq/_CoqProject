-Q theories Verif
theories/Base.v
theories/Expr.v
theories/Kernel.v
theories/Mono.v
theories/Funcs.v
theories/FMono.v
theories/Calc.v
theories/Sem.v
theories/RealLemmas.v
theories/Sound.v
theories/SoundPow.v
theories/Atoms.v
theories/Agree.v
theories/Sort.v
theories/FSound.v
theories/CalcSound.v
theories/Cont.v
theories/Combi.v
theories/Expand.v
theories/ExpandSound.v
theories/Factor.v
theories/Oracle.v
theories/Regex.v
theories/Simp.v
theories/Pts.v
theories/Match.v
theories/TrigSimp.v
theories/Poly.v
theories/Table.v
theories/Trans.v
theories/TransMono.v
theories/TransSound.v
theories/Search.v
theories/SearchMono.v
theories/SearchSound.v
theories/Shape.v
theories/Numbers.v
theories/PropsA.v
theories/PropsB.v
theories/PropsC.v
theories/PropsD.v
theories/PolyQ.v
theories/Interval.v
theories/PropsE.v
theories/PropsF.v
theories/PropsG.v
theories/Latex.v
theories/PropsH.v
theories/PropsI.v
theories/Her.v
theories/HerLib.v
theories/HerSimp.v
theories/HerTrig.v
theories/HerTrans.v
theories/HerSearch.v
theories/Pure.v
theories/PropsJ.v
theories/Frag.v
theories/FragNum.v
theories/FragLib.v
theories/PropsK.v
theories/IntTree.v
theories/FragInt.v
theories/FragX.v
theories/FragXLib.v
theories/FragG.v
theories/TrigTot.v
theories/PropsL.v
theories/Read.v
theories/Canon.v
theories/CanonR.v
theories/ReadRepr.v
theories/PropsM.v
theories/ReadTex.v
theories/TexRepr.v
theories/PropsN.v
theories/NForm.v
theories/NUniq.v
theories/NOps.v
theories/NExp.v
theories/NInt.v
theories/PropsO.v
theories/NInv.v
theories/PropsP.v
theories/Objects.v
theories/ObjLib.v
theories/ObjFlat.v
theories/PropsQ.v
theories/Api.v
theories/PropsR.v
theories/Evalf.v
theories/PropsS.v
theories/PropsT.v
theories/PropsU.v
theories/NFac.v
theories/PropsV.v
theories/PropsW.v
theories/TrigDef.v
theories/Unnamed.v
theories/LogDef.v
theories/IntTree2.v
theories/LinTot.v
theories/LinInt.v
theories/LinProps.v
theories/LinDef.v
theories/UsubVar.v
theories/PropsX.v
theories/PolyTot.v
theories/PropsY.v
theories/PFrac.v
theories/PDiv.v
theories/PropsI2.v
theories/PropsZ.v
theories/Rewrites.v
theories/ConformDefs.v
theories/Conform.v
