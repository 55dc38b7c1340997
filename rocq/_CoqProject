-Q theories Verif
theories/Base.v
theories/ArithModel.v
theories/ArithProofs.v
theories/GaussProofs.v
theories/XModModel.v
theories/Primality.v
theories/XModProofs.v
theories/RatModel.v
theories/RatProofs.v
theories/PropertiesArith.v
theories/QuadRec.v
theories/MArithModel.v
theories/LegendreSpec.v
theories/LegendreMath.v
theories/JacobiMath.v
theories/LegendreProofs.v
theories/MArithProofs.v
theories/KroneckerProofs.v
theories/SqrtModProofs.v
theories/DivisorProofs.v
theories/MiscArithProofs.v
theories/PropertiesMArith.v
theories/FormsModel.v
theories/FormsProofs.v
theories/PropertiesForms.v
theories/CurveModel.v
theories/CurveProofs.v
theories/MinimalProofs.v
theories/PropertiesCurve.v
theories/GroupLaw.v
theories/CoordRing.v
theories/QcGroup.v
theories/PointsModel.v
theories/PointsProofs.v
theories/PointsGroup.v
theories/PointsMore.v
theories/PropertiesPoints.v
theories/P1Math.v
theories/SymbModel.v
theories/SymbProofs.v
theories/SymbMain.v
theories/SymbIndex.v
theories/CuspModel.v
theories/CuspProofs.v
theories/CuspEq.v
theories/PropertiesSymb.v
theories/PoolModel.v
theories/PoolProofs.v
theories/SearchModel.v
theories/SearchProofs.v
theories/PropertiesPool.v
theories/LinModel.v
theories/LinSpec.v
theories/LinProofs.v
theories/LinElim.v
theories/LinKer.v
theories/LinAlg.v
theories/PropertiesLin.v
theories/Bareiss.v
theories/CharPoly.v
theories/EchModel.v
theories/EchProofs.v
theories/EchBack.v
theories/EchKer.v
theories/EchRef.v
theories/EchChar.v
theories/PropertiesEch.v
theories/SvecModel.v
theories/SvecSpec.v
theories/SvecProofs.v
theories/SvecOps.v
theories/SvecMod.v
theories/SvecMore.v
theories/PropertiesSparse.v
theories/SmatModel.v
theories/SmatSpec.v
theories/SmatProofs.v
theories/SmatOps.v
theories/SmatMat.v
theories/SmatArith.v
theories/SmatMore.v
theories/SmatModp.v
theories/SmatRun.v
theories/PropertiesSmat.v
theories/OrdModel.v
theories/OrdSpec.v
theories/OrdProofs.v
theories/PropertiesOrd.v
theories/BitModel.v
theories/BitSpec.v
theories/BitProofs.v
theories/PropertiesBit.v
theories/SqfModel.v
theories/SqfSpec.v
theories/SqfProofs.v
theories/SqfMain.v
theories/SqfEnd.v
theories/SqfIndex.v
theories/SqfLast.v
theories/PropertiesSqf.v
theories/PrimeModel.v
theories/PrimeSpec.v
theories/PrimeProofs.v
theories/PrimeMain.v
theories/PrimeLast.v
theories/PropertiesPrime.v
theories/OptModel.v
theories/OptSpec.v
theories/OptProofs.v
theories/OptMain.v
theories/OptEnd.v
theories/PropertiesOpt.v
theories/LLLModel.v
theories/LLLSpec.v
theories/LLLDet.v
theories/LLLForms.v
theories/LLLLoop.v
theories/LLLProofs.v
theories/LLLPos.v
theories/LLLMain.v
theories/LLLEnd.v
theories/PropertiesLLL.v
theories/LegModel.v
theories/LegArith.v
theories/LegLem1.v
theories/LegBody.v
theories/LegDescent.v
theories/LegReduce.v
theories/LegSolve.v
theories/ConicModel.v
theories/ConicDiag.v
theories/ConicLocal.v
theories/ConicProofs.v
theories/ConicSpec.v
theories/ConicExample.v
theories/PropertiesConic.v
theories/LegLLLModel.v
theories/LegLLL.v
theories/LegSolveLLL.v
theories/PropertiesConicLLL.v
theories/LocSolModel.v
theories/LocSolSpec.v
theories/LocSolArith.v
theories/LocSolLocal.v
theories/LocSolProofs.v
theories/LocSolZero.v
theories/PropertiesLocSol.v
theories/HilbertModel.v
theories/HilbertSpec.v
theories/HilbertLocal.v
theories/HilbertProofs.v
theories/HilbertGlobal.v
theories/PropertiesHilbert.v
theories/FpResidue.v
theories/LocSolSSModel.v
theories/LocSolSSSpec.v
theories/LocSolSSField.v
theories/LocSolSSProofs.v
theories/LocSolSSFactor.v
theories/PropertiesLocSolSS.v
theories/LocSolReal.v
theories/LocSolGood.v
theories/LocSolGlobalModel.v
theories/LocSolGlobalSpec.v
theories/LocSolGlobal.v
theories/PropertiesLocSolAll.v
theories/LinRank.v
theories/OrdMore.v
theories/SElimModel.v
theories/SElimRow.v
theories/SElimInv.v
theories/SElimPivot.v
theories/SElimSteps.v
theories/SElimStep0.v
theories/SElimStd.v
theories/SElimDense.v
theories/SElimKer.v
theories/SElimNull.v
theories/SElimInst.v
theories/PropertiesSElim.v
theories/TateModel.v
theories/TateSpec.v
theories/TateArith.v
theories/TateShift.v
theories/TateStar.v
theories/TateLoop.v
theories/TateProofs.v
theories/TateFinal.v
theories/TateUnique.v
theories/TamModel.v
theories/TamProofs.v
theories/PropertiesTate.v
theories/GrpModel.v
theories/GrpLib.v
theories/GrpBG.v
theories/GrpProofs.v
theories/GrpIso.v
theories/GrpEx.v
theories/PropertiesGrp.v
theories/EgrModel.v
theories/EgrSpec.v
theories/EgrImage.v
theories/EgrProofs.v
theories/EgrGood.v
theories/EgrIndex.v
theories/EgrTam.v
theories/PropertiesEgr.v
theories/DivPolModel.v
theories/DivPolEds.v
theories/DivPolCurve.v
theories/DivPolProofs.v
theories/DivPolEval.v
theories/DivPolGen.v
theories/DivPolTwo.v
theories/DivPolQ.v
theories/PropertiesDivPol.v
theories/NagLutz.v
theories/OrderTot.v
theories/PropertiesOrder.v
theories/RootsModel.v
theories/RootsProofs.v
theories/PropertiesRoots.v
theories/TorsModel.v
theories/TorsProofs.v
theories/PropertiesTors.v
theories/TorsAll.v
theories/TorsDiv.v
theories/PropertiesTorsAll.v
theories/VeluGen.v
theories/VeluInt.v
theories/IsogModel.v
theories/IsogSpec.v
theories/IsogProofs.v
theories/IsogGen.v
theories/IsogField.v
theories/PropertiesIsog.v
theories/IsogClassModel.v
theories/IsogClassProofs.v
theories/PropertiesIsogClass.v
theories/LiftModel.v
theories/LiftProofs.v
theories/PropertiesLift.v
theories/MinimModel.v
theories/MinimSpec.v
theories/MinimArith.v
theories/MinimProofs.v
theories/MinimAllProofs.v
theories/MinimArith3.v
theories/MinimThree.v
theories/MinimAllThree.v
theories/PropertiesMinim.v
theories/CurveSortModel.v
theories/CurveSortSpec.v
theories/CurveSortProofs.v
theories/PropertiesCurveSort.v
theories/TestdModel.v
theories/TestdProofs.v
theories/PropertiesTestd.v
