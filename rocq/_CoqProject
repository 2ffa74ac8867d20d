-Q theories Verif
theories/Base.v
theories/MIntMath.v
theories/MPrimes16.v
theories/MPrime.v
theories/MFac.v
theories/MIntmod.v
theories/PIntMath.v
theories/PIntMath2.v
theories/PPrime.v
theories/PFac.v
theories/PIntmod.v
theories/PropInt.v
theories/PropIntmod.v
theories/MIntrat.v
theories/MMisc.v
theories/PIntrat.v
theories/PMisc.v
theories/PropIntrat.v
theories/PropMisc.v
theories/PFacGen.v
theories/PFacInt.v
theories/MCont.v
theories/PCont.v
theories/PropCont.v
theories/PLin.v
theories/PLin2.v
theories/PLin3.v
theories/MMat.v
theories/PMat.v
theories/PMat2.v
theories/PPow.v
theories/PMat3.v
theories/PFp.v
theories/PropMat.v
theories/MBits.v
theories/PBits.v
theories/PBits2.v
theories/PBits3.v
theories/PropBits.v
theories/MF2Poly.v
theories/PF2Poly.v
theories/PF2Poly2.v
theories/PF2Poly3.v
theories/PF2Poly4.v
theories/PropF2Poly.v
theories/PBerl.v
theories/MF2Fac.v
theories/PF2Fac1.v
theories/PFacPoly.v
theories/PF2Fac2.v
theories/PF2Fac3.v
theories/PIrr.v
theories/PF2Irr.v
theories/PPhi.v
theories/PF2Tot.v
theories/PropF2Fac.v
theories/MUnits.v
theories/PUnits.v
theories/PSort.v
theories/PFpUnits.v
theories/PFpGen.v
theories/PEuler.v
theories/PF2Units.v
theories/PF2Log.v
theories/PropUnits.v
theories/MPoly.v
theories/PPoly.v
theories/PPoly2.v
theories/PPoly3.v
theories/PPoly4.v
theories/PFpPoly.v
theories/PropFpPoly.v
theories/MPolymod.v
theories/PPolymod.v
theories/PropFpPolymod.v
theories/MPolyFac.v
theories/PPolyFac.v
theories/PPolyFac2.v
theories/PPolyFac3.v
theories/PropFpFac.v
theories/PIrrGen.v
theories/MF2nPoly.v
theories/PF2n.v
theories/PropF2nPoly.v
theories/PropF2nPolymod.v
theories/PropF2nFac.v
theories/PropF2nUnits.v
theories/MLinalg.v
theories/PEd.v
theories/PLinalg.v
theories/PMinPoly.v
theories/PMinPoly2.v
theories/PMinPoly3.v
theories/PLinalg2.v
theories/PropLinalg.v
theories/MRat.v
theories/PRat.v
theories/PRat2.v
theories/PropRat.v
theories/MList.v
theories/PList.v
theories/PList2.v
theories/PList3.v
theories/PList4.v
theories/PList5.v
theories/PList6.v
theories/PList7.v
theories/PList8.v
theories/PropList.v
theories/MCli.v
theories/PCli.v
theories/PCli2.v
theories/PCli3.v
theories/PCli4.v
theories/PropCli.v
theories/MCyclo.v
theories/PMono.v
theories/PQPoly.v
theories/PQPoly2.v
theories/PCyclo.v
theories/PCyclo2.v
theories/PCyclo3.v
theories/PCyclo4.v
theories/PropCyclo.v
theories/MConvert.v
theories/PConvert.v
theories/PropConvert.v
theories/MRandom.v
theories/PRandom.v
theories/PropRandom.v
theories/MFpnPoly.v
theories/PFpn.v
theories/PropFpnPoly.v
theories/PropFpnPolymod.v
theories/MDiag.v
theories/PDiag.v
theories/PDiag2.v
theories/PropDiag.v
theories/MCmdInterp.v
theories/PCmdInterp.v
theories/PropCmdInterp.v
theories/MMatCli.v
theories/PMatCli.v
theories/PMatCli2.v
theories/PMatCli3.v
theories/PMatCli4.v
theories/PMatCli5.v
theories/PMatCli6.v
theories/PMatCli7.v
theories/PMatCli8.v
theories/PMatCli9.v
theories/PMatCli10.v
theories/PropMatCli.v
theories/MTextIO.v
theories/PTextIO.v
theories/PTextIO2.v
theories/PTextIO3.v
theories/PTextIO4.v
theories/PTextIO5.v
theories/PTextIO6.v
theories/PTextIO7.v
theories/PropTextIO.v
theories/PropTextIO2.v
theories/MPolyText.v
theories/PPolyText.v
theories/PPolyText2.v
theories/PPolyText3.v
theories/PPolyText4.v
theories/PPolyText5.v
theories/PPolyText6.v
theories/PPolyText7.v
theories/PPolyText8.v
theories/PPolyText9.v
theories/PPolyText10.v
theories/PropPolyText.v
theories/MSpiff.v
theories/PSpiff.v
theories/PSpiff2.v
theories/PSpiff3.v
theories/PSpiff4.v
theories/PSpiff5.v
theories/PSpiff6.v
theories/PropSpiff.v
theories/PropSpiff2.v
theories/MSpiff2.v
theories/PSpiff7.v
theories/PSpiff8.v
theories/PSpiff9.v
theories/PSpiff10.v
theories/PropSpiff3.v
theories/PSpiff11.v
theories/PSpiff12.v
theories/PropSpiff4.v
theories/PSpiff13.v
theories/PropSpiff5.v
theories/MSpiff3.v
theories/PSpiff14.v
theories/PSpiff15.v
theories/PropSpiff6.v
theories/MSpiff4.v
theories/MSpiff5.v
theories/PSpiff16.v
theories/PropSpiff7.v
theories/PropSpiff8.v
theories/PropSpiff9.v
theories/PropSpiff10.v
theories/MSpiff6.v
theories/PropSpiff11.v
theories/MSpiff7.v
theories/PropSpiff12.v
theories/MSpiff8.v
theories/PBitText.v
theories/PropSpiff13.v
