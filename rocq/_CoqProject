-Q theories Verif
theories/Rust.v
theories/Traits.v
theories/MInts.v
theories/MConstr.v
theories/RingTac.v
theories/Wp.v
theories/Spec.v
theories/PDefaults.v
theories/PEucl.v
theories/PGroups.v
theories/ZFacts.v
theories/ZEgcd.v
theories/PIntsZ.v
theories/PInts.v
theories/PChecked.v
theories/POrders.v
theories/Quotient.v
theories/PQuot.v
theories/PModular.v
theories/PFrac.v
theories/PDiv.v
theories/PVec.v
theories/PPolyA.v
theories/PPoly.v
theories/MatFacts.v
theories/PMat.v
theories/PPerm.v
theories/Refuted.v
theories/PTimes.v
theories/Laws.v
theories/PLaws.v
theories/PLaws2.v
theories/PDistr.v
theories/PSim.v
theories/PCISim.v
theories/NumSpec.v
theories/PNum.v
theories/PNumLaws.v
theories/Props_Numbers.v
theories/PropSpec.v
theories/PEuclProps.v
theories/Props_Eucl.v
theories/PQuotProps.v
theories/ModSpec.v
theories/PModProps.v
theories/Props_Quot.v
theories/PFracProps.v
theories/FracSpec.v
theories/PRational.v
theories/Props_Frac.v
theories/RingSpec.v
theories/PPolyProps.v
theories/Props_Poly.v
theories/PMatProps.v
theories/DetSpec.v
theories/PDet.v
theories/Props_Mat.v
theories/POrdProps.v
theories/Props_Vec.v
theories/Props_Perm.v
theories/Props_Order.v
theories/PWeaken.v
theories/TowerSpec.v
theories/PTower.v
theories/PTowerEx.v
theories/Props_Tower.v
theories/CallSpec.v
theories/PAssign.v
theories/Props_Assign.v
theories/MemberSpec.v
theories/PMember.v
theories/PMember2.v
theories/Props_Member.v
theories/PGSim.v
theories/ProfSpec.v
theories/PProf.v
theories/PProf2.v
theories/PProf3.v
theories/PProf4.v
theories/Props_Profile.v
theories/MFloats.v
theories/FloatSpec.v
theories/PFloat.v
theories/PFloat2.v
theories/PFloat3.v
theories/Props_Float.v
theories/ArgSpec.v
theories/PArgs.v
theories/Props_Args.v
theories/PCount.v
theories/CountSpec.v
theories/PCount2.v
theories/PCount3.v
theories/Props_Count.v
theories/FiniteSpec.v
theories/PFinite.v
theories/PBool.v
theories/Props_Finite.v
theories/CostSpec.v
theories/PCost.v
theories/PCost2.v
theories/PCost3.v
theories/Props_Cost.v
theories/RatSpec.v
theories/PRat.v
theories/Props_Rat.v
theories/Tests.v
theories/FloatLaw.v
theories/PFloat4.v
theories/Props_FloatLaw.v
theories/DiagSpec.v
theories/PDiag.v
theories/Props_Diag.v
theories/BezoutSpec.v
theories/ZBezout.v
theories/PBezout.v
theories/Props_Bezout.v
theories/PanicSpec.v
theories/PPanic.v
theories/Props_Panic.v
theories/GcdLaw.v
theories/PGcdLaw.v
theories/TimesLaw.v
theories/PTimesLaw.v
theories/PLawTower.v
theories/Props_Laws.v
theories/DegreeSpec.v
theories/PDegree.v
theories/Props_Degree.v
theories/FFSpec.v
theories/PFF.v
theories/Props_FF.v
theories/HaltSpec.v
theories/PHSim.v
theories/PHalt.v
theories/PHalt2.v
theories/PHalt3.v
theories/PHaltF.v
theories/Props_Halt.v
theories/FloatAlgSpec.v
theories/PFloatAlg.v
theories/Props_FloatAlg.v
theories/WideSpec.v
theories/PWide.v
theories/Props_Wide.v
theories/DetLaw.v
theories/PDetLaw.v
theories/Props_DetLaw.v
theories/FloatProfSpec.v
theories/PProfF.v
theories/Props_ProfF.v
theories/HomLaw.v
theories/PHom.v
theories/Props_Hom.v
theories/OverSpec.v
theories/POver.v
theories/Props_Over.v
theories/ResSpec.v
theories/PRes.v
theories/Props_Res.v
theories/RustFacts.v
theories/PCheck2.v
theories/ChinLaw.v
theories/PChin.v
theories/PChinZ.v
theories/Props_Chin.v
theories/EvalLaw.v
theories/PEval.v
theories/Props_Eval.v
theories/ParSpec.v
theories/PPar.v
theories/PPar2.v
theories/PPar3.v
theories/PPar4.v
theories/PPar5.v
theories/Props_Par.v
theories/SumSpec.v
theories/FloatErrSpec.v
theories/PSums.v
theories/PFloatErr.v
theories/PFloatPow.v
theories/PFloatEx.v
theories/Props_FloatErr.v
theories/PAssignF.v
theories/Props_AssignF.v
theories/PFloatFmt.v
theories/Props_FloatFmt.v
theories/EntrySpec.v
theories/PEntry.v
theories/Props_Entry.v
theories/PTypes.v
theories/Props_Types.v
theories/PCases.v
theories/PCasesT.v
theories/LooseSpec.v
theories/PLoose.v
theories/Props_Loose.v
theories/TransSpec.v
theories/PTrans.v
theories/Props_Trans.v
theories/MIndex.v
theories/IndexSpec.v
theories/PIndex.v
theories/Props_Index.v
theories/LenSpec.v
theories/PLen.v
theories/Props_Len.v
theories/MPlace.v
theories/PlaceSpec.v
theories/PPlace.v
theories/PPlaceF.v
theories/PPlace2.v
theories/Props_Place.v
theories/MOps.v
theories/OpsSpec.v
theories/POps.v
theories/POps2.v
theories/POps3.v
theories/POps4.v
theories/POps5.v
theories/POps6.v
theories/Props_Ops.v
theories/FitSpec.v
theories/PMinor.v
theories/PFit.v
theories/PFitInt.v
theories/Props_Fit.v
theories/ExcSpec.v
theories/PExc.v
theories/Props_Exc.v
theories/LuSpec.v
theories/PLu.v
theories/PLu2.v
theories/PLuEx.v
theories/Props_Lu.v
theories/DivErrSpec.v
theories/PDivErr.v
theories/Props_DivErr.v
theories/JordanSpec.v
theories/PJordan.v
theories/PJordan2.v
theories/PJordanEx.v
theories/Props_Jordan.v
theories/ExactSpec.v
theories/ExactQSpec.v
theories/PExact.v
theories/PExact2.v
theories/PExact3.v
theories/PExactDiv.v
theories/PExact4.v
theories/PExactRun.v
theories/PExactEx.v
theories/Props_Exact.v
theories/IntPolySpec.v
theories/PIntPoly.v
theories/PIntPoly2.v
theories/PIntPoly3.v
theories/PIntPoly4.v
theories/PIntPolyEx.v
theories/Props_IntPoly.v
theories/WidthSpec.v
theories/PWidth.v
theories/Props_Width.v
theories/FitRatSpec.v
theories/PFitRat.v
theories/Props_FitRat.v
theories/PFloatAlg2.v
theories/MNew.v
theories/PNew.v
theories/Props_New.v
theories/ComplexSpec.v
theories/PComplex.v
theories/PComplex2.v
theories/PComplex3.v
theories/Props_Complex.v
theories/ResidueSpec.v
theories/PResidue.v
theories/Props_Residue.v
theories/ReprSpec.v
theories/PRepr.v
theories/PRepr2.v
theories/Props_Repr.v
theories/SameSpec.v
theories/PSame.v
theories/PSame2.v
theories/PSame3.v
theories/PSame4.v
theories/PSame5.v
theories/PSameEx.v
theories/Props_Same.v
theories/FloatRange.v
theories/PFloatRange.v
theories/Props_FloatRange.v
theories/IrrSpec.v
theories/PIrr.v
theories/PIrr2.v
theories/PIrrEx.v
theories/Props_Irr.v
theories/ValSpec.v
theories/PVal.v
theories/PValEx.v
theories/Props_Val.v
theories/FactSpec.v
theories/PFact.v
theories/PFact2.v
theories/PFactEx.v
theories/Props_Fact.v
theories/PWilson.v
theories/PWilsonEx.v
theories/Props_Wilson.v
theories/FourierSpec.v
theories/PFourier.v
theories/PFourierEx.v
theories/Props_Fourier.v
theories/PRsa.v
theories/PRsaEx.v
theories/Props_Rsa.v
theories/SqfSpec.v
theories/PSqf.v
theories/PSqf2.v
theories/PSqfEx.v
theories/Props_Sqf.v
theories/DiophSpec.v
theories/PDioph.v
theories/Props_Dioph.v
theories/RootSpec.v
theories/PRoot.v
theories/PRootEx.v
theories/Props_Root.v
theories/PPratt.v
theories/PPratt2.v
theories/PPrattEx.v
theories/Props_Pratt.v
theories/PRatRoot.v
theories/PRatRootEx.v
theories/Props_RatRoot.v
theories/PartSpec.v
theories/PPartial.v
theories/Props_Partial.v
theories/CompSpec.v
theories/PComp.v
theories/Props_Comp.v
theories/RCountSpec.v
theories/PRCount.v
theories/Props_RCount.v
theories/RecurSpec.v
theories/PRecur.v
theories/PRecurEx.v
theories/Props_Recur.v
theories/GcdsSpec.v
theories/PGcds.v
theories/Props_Gcds.v
theories/ValuSpec.v
theories/PValu.v
theories/PValuEx.v
theories/Props_Valu.v
theories/NewtonSpec.v
theories/PNewton.v
theories/Props_Newton.v
theories/DlogSpec.v
theories/PDlog.v
theories/PDlogEx.v
theories/Props_Dlog.v
theories/BatchSpec.v
theories/PBatch.v
theories/PBatchEx.v
theories/Props_Batch.v
theories/ElemOrdSpec.v
theories/PElemOrd.v
theories/PElemOrdEx.v
theories/Props_ElemOrd.v
theories/CongSpec.v
theories/PCong.v
theories/Props_Cong.v
theories/LagrSpec.v
theories/PLagr.v
theories/PLagrEx.v
theories/Props_Lagr.v
theories/CFracSpec.v
theories/PCFrac.v
theories/Props_CFrac.v
theories/DigitSpec.v
theories/PDigit.v
theories/Props_Digit.v
theories/KaraSpec.v
theories/PKara.v
theories/Props_Kara.v
theories/SortSpec.v
theories/PSort.v
theories/Props_Sort.v
theories/MedianSpec.v
theories/PMedian.v
theories/Props_Median.v
