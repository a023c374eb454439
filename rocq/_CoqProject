-Q theories Verif
theories/Num.v
theories/Py.v
theories/MBase.v
theories/MVanilla.v
theories/Arr.v
theories/MTrees.v
theories/MPlot.v
theories/STrees.v
theories/PCnd.v
theories/PCnd2.v
theories/PBlack.v
theories/PGauss.v
theories/PGbs.v
theories/PGbs2.v
theories/PGbs3.v
theories/PMs.v
theories/PVol.v
theories/PCndAcc.v
theories/PMono.v
theories/PVanilla.v
theories/PVolAcc.v
theories/Props_Vanilla.v
theories/PTrees.v
theories/PTrees2.v
theories/PStop.v
theories/PTrees3.v
theories/PLattice.v
theories/PTrees4.v
theories/PTrees5.v
theories/PPlot.v
theories/PConv.v
theories/PConv2.v
theories/PConv3.v
theories/PConv4.v
theories/SSens.v
theories/PSens.v
theories/PTreeVol.v
theories/PTreeVol2.v
theories/Props_Trees.v
theories/MSpread.v
theories/SLattice.v
theories/SSpread.v
theories/PGen.v
theories/PSpread.v
theories/PSpread2.v
theories/PSpread3.v
theories/PKirk.v
theories/PKirk2.v
theories/PTriSpread.v
theories/Props_Spread.v
theories/MAmerican.v
theories/MObjects.v
theories/MClasses.v
theories/SObjects.v
theories/PObjects.v
theories/PObjects2.v
theories/PObjects3.v
theories/PClasses.v
theories/PClasses2.v
theories/PClasses3.v
theories/PClasses4.v
theories/PClasses5.v
theories/XObjects.v
theories/MGreeks.v
theories/SGreeks.v
theories/PGreeks.v
theories/SFormula.v
theories/PFormula.v
theories/XFormula.v
theories/Props_Objects.v
theories/PCbnd.v
theories/SAmerican.v
theories/PRgw.v
theories/SAmerican2.v
theories/PRgw2.v
theories/PBvn.v
theories/PBvn2.v
theories/PBvn3.v
theories/PBvn4.v
theories/XBvn.v
theories/PBaw.v
theories/PBs.v
theories/PDegen.v
theories/PBaw2.v
theories/PBaw3.v
theories/PBaw4.v
theories/XBaw.v
theories/XAmerican.v
theories/Props_American.v
theories/MMonte.v
theories/SMonte.v
theories/PMonte.v
theories/PMonte2.v
theories/PMonte3.v
theories/PMonte4.v
theories/PMonteX.v
theories/XMonte.v
theories/SMonte2.v
theories/PExpect2.v
theories/PMonte6.v
theories/XMonte2.v
theories/Props_Monte.v
theories/MHeston.v
theories/PCplx.v
theories/PHnGauss.v
theories/SHeston.v
theories/PHeston.v
theories/PHeston2.v
theories/PExpect.v
theories/PDirichlet.v
theories/PInversion.v
theories/PHnPrice.v
theories/PMonte5.v
theories/PHeston3.v
theories/PHeston4.v
theories/PHestonX.v
theories/XHeston.v
theories/Props_Heston.v
theories/MVector.v
theories/SVector.v
theories/PVector.v
theories/PVector2.v
theories/PVector3.v
theories/XVector.v
theories/Props_Vector.v
theories/SSpread2.v
theories/PClt.v
theories/PClt2.v
theories/PMargrabe.v
theories/PTwoAsset.v
theories/PAsian.v
theories/SAmer.v
theories/PAmer1.v
theories/PAmer2.v
theories/PAmer3.v
theories/PAmer4.v
theories/PAmer5.v
theories/PAmer6.v
theories/PAmer7.v
theories/PAmer8.v
theories/SAmer2.v
theories/PAmer9.v
theories/PAmer10.v
theories/PAmer11.v
theories/PAmer12.v
theories/PRates.v
theories/PBs2.v
theories/PBs3.v
theories/PBs4.v
theories/SBs.v
theories/PBs5.v
theories/SMs.v
theories/PMs2.v
theories/PRgw3.v
theories/PBs6.v
theories/PBaw5.v
theories/PRgw4.v
theories/PPerp.v
theories/PPerp2.v
theories/PPerp3.v
theories/PRate.v
theories/PRate2.v
theories/PRate3.v
theories/Props_Limits.v
theories/MFloat.v
theories/SFloat.v
theories/PFloat.v
theories/PFloat2.v
theories/PFloat3.v
theories/PFloat4.v
theories/PFloat5.v
theories/PFloat6.v
theories/PFloat7.v
theories/PFloat8.v
theories/PFloat9.v
theories/PFloat10.v
theories/PFloat11.v
theories/PFloat12.v
theories/PFloat13.v
theories/PFloat14.v
theories/Props_Float.v
