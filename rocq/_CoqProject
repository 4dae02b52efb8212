-Q theories Verif
theories/Arith.v
theories/Base.v
theories/BaseFacts.v
theories/MBanded.v
theories/MBlock.v
theories/MButter.v
theories/MClassical.v
theories/MConn.v
theories/MDense.v
theories/MDense2.v
theories/MDense3.v
theories/MDense4.v
theories/MDprk.v
theories/MDprk2.v
theories/MDrivers.v
theories/MEig.v
theories/MEigPlan.v
theories/MFactor.v
theories/MFftw.v
theories/MGrad.v
theories/MHarmonic.v
theories/MHeap.v
theories/MHier.v
theories/MInt.v
theories/MInt2.v
theories/MIso.v
theories/MLife.v
theories/MLife2.v
theories/MLife3.v
theories/MLife4.v
theories/MPermute.v
theories/MRecur.v
theories/MRefBlas.v
theories/MRotations.v
theories/MSched.v
theories/MSht.v
theories/MSort.v
theories/MTdc.v
theories/MTransforms.v
theories/MTridiag.v
theories/PBand.v
theories/PBandedThms.v
theories/PBlock.v
theories/PBlock2.v
theories/PBlock3.v
theories/PBlock4.v
theories/PBlock5.v
theories/PBlock6.v
theories/PBlockThms.v
theories/PButter.v
theories/PButter2.v
theories/PButter3.v
theories/PButterThms.v
theories/PCheb.v
theories/PClass1.v
theories/PClass2.v
theories/PClass3.v
theories/PClass4.v
theories/PClass5.v
theories/PClass6.v
theories/PClass7.v
theories/PClass8.v
theories/PClen.v
theories/PConv1.v
theories/PConv10.v
theories/PConv11.v
theories/PConv12.v
theories/PConv13.v
theories/PConv14.v
theories/PConv15.v
theories/PConv16.v
theories/PConv17.v
theories/PConv18.v
theories/PConv19.v
theories/PConv2.v
theories/PConv20.v
theories/PConv21.v
theories/PConv22.v
theories/PConv23.v
theories/PConv24.v
theories/PConv25.v
theories/PConv26.v
theories/PConv3.v
theories/PConv4.v
theories/PConv5.v
theories/PConv6.v
theories/PConv7.v
theories/PConv8.v
theories/PConv9.v
theories/PDense.v
theories/PDense2.v
theories/PDiag.v
theories/PDprk.v
theories/PDprk10.v
theories/PDprk2.v
theories/PDprk3.v
theories/PDprk4.v
theories/PDprk5.v
theories/PDprk6.v
theories/PDprk7.v
theories/PDprk8.v
theories/PDprk9.v
theories/PDprkThms.v
theories/PDrivers.v
theories/PDrivers2.v
theories/PDrivers3.v
theories/PDrivers4.v
theories/PDrivers5.v
theories/PDriversThms.v
theories/PDual.v
theories/PEig.v
theories/PEigPlan.v
theories/PEigPlan2.v
theories/PEigPlan3.v
theories/PEigPlan4.v
theories/PEigPlan5.v
theories/PEigPlan6.v
theories/PEigPlan7.v
theories/PEigPlan8.v
theories/PEigThms.v
theories/PFactor.v
theories/PFactor2.v
theories/PFactorThms.v
theories/PFftw.v
theories/PFftw2.v
theories/PFftw3.v
theories/PFftw4.v
theories/PFftw5.v
theories/PFftw6.v
theories/PFftw7.v
theories/PFftwThms.v
theories/PGeo1.v
theories/PGeo2.v
theories/PGeo3.v
theories/PGeo4.v
theories/PGeo5.v
theories/PGeo6.v
theories/PGeo7.v
theories/PGrad1.v
theories/PGrad2.v
theories/PGrad3.v
theories/PGrad4.v
theories/PGrad5.v
theories/PGrad6.v
theories/PGrad7.v
theories/PGrad8.v
theories/PGrad9.v
theories/PGradEx.v
theories/PHarm.v
theories/PHarm2.v
theories/PHarm3.v
theories/PHarm4.v
theories/PHarmEx.v
theories/PHeap.v
theories/PHier.v
theories/PHier2.v
theories/PHier3.v
theories/PHier4.v
theories/PHier5.v
theories/PHierThms.v
theories/PInt.v
theories/PInt2.v
theories/PInt3.v
theories/PInt4.v
theories/PInt5.v
theories/PInter.v
theories/PIso.v
theories/PIso2.v
theories/PIso3.v
theories/PIso4.v
theories/PIso5.v
theories/PIso6.v
theories/PIso7.v
theories/PIso8.v
theories/PIso9.v
theories/PIsoThms.v
theories/PKraw.v
theories/PKraw2.v
theories/PLife.v
theories/PLife2.v
theories/PLife3.v
theories/PLife4.v
theories/PLife5.v
theories/PLife6.v
theories/PLinInv.v
theories/PPen.v
theories/PPenC.v
theories/PPenJ.v
theories/PPenL.v
theories/PPenU.v
theories/PPerm.v
theories/PPermute.v
theories/PPermute2.v
theories/PPoly.v
theories/PQR.v
theories/PRecur.v
theories/PRecur2.v
theories/PRefBlas.v
theories/PRefFftw.v
theories/PReflect.v
theories/PRot.v
theories/PRotBlock.v
theories/PRotFam.v
theories/PRotInv.v
theories/PRotKernels.v
theories/PRotMore.v
theories/PRotPlans.v
theories/PRotThms.v
theories/PSched.v
theories/PSched2.v
theories/PSched3.v
theories/PSchedThms.v
theories/PSearch.v
theories/PSht.v
theories/PSort.v
theories/PSortThms.v
theories/PSum.v
theories/PTdc.v
theories/PTdc2.v
theories/PTdcThms.v
theories/PTransforms.v
theories/PTransforms2.v
theories/PTransforms3.v
theories/PTransforms4.v
theories/PTransforms5.v
theories/PTri.v
theories/PTri2.v
theories/PTridiag.v
theories/PTrig.v
theories/PUltra.v
theories/Properties_Banded.v
theories/Properties_Block.v
theories/Properties_Butter.v
theories/Properties_Classical.v
theories/Properties_Conn.v
theories/Properties_Convert.v
theories/Properties_Convert2.v
theories/Properties_Convert3.v
theories/Properties_Convert4.v
theories/Properties_Convert5.v
theories/Properties_Dprk.v
theories/Properties_Drivers.v
theories/Properties_Eig.v
theories/Properties_EigPlan.v
theories/Properties_Factor.v
theories/Properties_Fftw.v
theories/Properties_Grad.v
theories/Properties_Harmonic.v
theories/Properties_Hier.v
theories/Properties_Int.v
theories/Properties_Int2.v
theories/Properties_Iso.v
theories/Properties_Lifecycle.v
theories/Properties_Permute.v
theories/Properties_Recurrence.v
theories/Properties_Rot.v
theories/Properties_Rotations.v
theories/Properties_Sched.v
theories/Properties_Sort.v
theories/Properties_Tdc.v
theories/Properties_Transforms.v
theories/SpecBanded.v
theories/SpecBlock.v
theories/SpecButter.v
theories/SpecClassical.v
theories/SpecConn.v
theories/SpecConvert.v
theories/SpecConvert2.v
theories/SpecConvert3.v
theories/SpecConvert4.v
theories/SpecConvert5.v
theories/SpecDprk.v
theories/SpecDrivers.v
theories/SpecEig.v
theories/SpecEigPlan.v
theories/SpecFftw.v
theories/SpecGeo.v
theories/SpecGrad.v
theories/SpecHarm.v
theories/SpecHeap.v
theories/SpecHier.v
theories/SpecIso.v
theories/SpecLin.v
theories/SpecRot.v
theories/SpecSched.v
theories/SpecSort.v
theories/SpecSum.v
theories/SpecTdc.v
theories/SpecTransforms.v
theories/SpecTri.v
