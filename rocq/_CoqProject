-Q theories Verif
theories/PyBase.v
theories/CBase.v
theories/Kernel.v
theories/KernelSpec.v
theories/KernelRefl.v
theories/KernelClosed.v
theories/KernelPhys.v
theories/KernelPassive.v
theories/KernelSym.v
theories/KernelSplit.v
theories/ODE.v
theories/KernelBVP.v
theories/KernelMain.v
theories/KernelThm.v
theories/KernelThm2.v
theories/KernelThin.v
theories/KernelThm3.v
theories/KernelThm4.v
theories/Bessel.v
theories/KernelBessel.v
theories/UtilsAb.v
theories/KernelFinal.v
theories/KernelPower.v
theories/PropsKernel.v
theories/Utils.v
theories/UtilsLayer.v
theories/UtilsModel.v
theories/UtilsFreq.v
theories/UtilsGeo.v
theories/UtilsSurvey.v
theories/PropsUtils.v
theories/Transform.v
theories/TransformDlf.v
theories/TransformLag.v
theories/TransformSpl.v
theories/TransformQwe.v
theories/TransformQuad.v
theories/Fullspace.v
theories/Model.v
theories/ModelFem.v
theories/ModelTem.v
theories/PropsTransform.v
theories/FullspaceThm.v
theories/FullspaceMaxwell.v
theories/FullspaceCurl.v
theories/FullspaceField.v
theories/FullspaceEM.v
theories/PropsAnalytic.v
theories/Halfspace.v
theories/Stehfest.v
theories/HalfspaceThm.v
theories/Gauss.v
theories/HalfspaceTime.v
theories/Routines.v
theories/RoutinesThm.v
theories/PropsHalfspace.v
theories/UtilsArgs.v
theories/ArgsKw.v
theories/ArgsPha.v
theories/ArgsWave.v
theories/ArgsFreq.v
theories/PropsArgs.v
theories/Bipole.v
theories/BipoleCol.v
theories/BipoleThm.v
theories/BipoleLoop.v
theories/BipolePlace.v
theories/BipoleMain.v
theories/BipoleFinal.v
theories/BipoleStrength.v
theories/BipoleDip.v
theories/BipoleTotal.v
theories/PropsBipole.v
theories/BipolePole.v
theories/PropsPole.v
theories/RoutinesK.v
theories/RoutinesKThm.v
theories/RoutinesKBad.v
theories/PropsRoutines.v
theories/Text.v
theories/Json.v
theories/JsonThm.v
theories/DataIo.v
theories/DataIoThm.v
theories/DataIoJson.v
theories/FilterIo.v
theories/FilterIoThm.v
theories/Cli.v
theories/CliThm.v
theories/PropsIo.v
theories/Tmtemod.v
theories/TmtemodThm.v
theories/Shift.v
theories/TmtemodShift.v
theories/PropsTmtemod.v
theories/Cint.v
theories/Hankel.v
theories/Sommer.v
theories/Sommer2.v
theories/Sommer3.v
theories/FourierPairs.v
theories/Fdesign.v
theories/FdesignThm.v
theories/PropsFdesign.v
theories/HalfspaceSym.v
theories/HalfspaceDc.v
theories/HalfspaceZero.v
theories/HalfspaceZero2.v
theories/PropsHalfspaceSym.v
theories/PropsHalfspaceZero.v
theories/AnalyticalThm.v
theories/PropsAnalytical.v
theories/Homog.v
theories/HomogThm.v
theories/PropsHomog.v
theories/Fourier.v
theories/FourierSum.v
theories/FourierFft.v
theories/FourierNode.v
theories/FourierLog.v
theories/FourierLog2.v
theories/FourierLog3.v
theories/FourierLog4.v
theories/FourierQwe.v
theories/PropsFourier.v
theories/HankelQ.v
theories/HankelQThm.v
theories/HankelQThm2.v
theories/HankelQThm3.v
theories/HankelQThm4.v
theories/PropsHankelQ.v
theories/FdesignD.v
theories/FdesignDThm.v
theories/FdesignDThm2.v
theories/FdesignDThm3.v
theories/FdesignDThm4.v
theories/PropsFilterDesign.v
theories/FdesignE.v
theories/FdesignEThm.v
theories/FdesignEThm2.v
theories/PropsEmpyHankel.v
theories/WaveField.v
theories/WaveField2.v
theories/WaveField3.v
theories/HalfspaceWave.v
theories/HalfspaceWave2.v
theories/HalfspaceWave3.v
theories/HalfspaceAir.v
theories/HalfspaceAir2.v
theories/HalfspaceAirImp.v
theories/HalfspaceAirImp2.v
theories/HalfspaceOff.v
theories/BesselMod.v
theories/PropsHalfspaceWave.v
theories/LayAsym.v
theories/LayConv.v
theories/LayWave.v
theories/LayField.v
theories/LayMaxwell.v
theories/LayCode.v
theories/LayVal.v
theories/LayEM.v
theories/LayCont.v
theories/LaySym.v
theories/LayRefl.v
theories/LayScale.v
theories/LayConj.v
theories/LayThin.v
theories/PropsLayered.v
theories/KernelDeep.v
theories/LayDeep.v
theories/LayDeep2.v
theories/LayDeep3.v
theories/PropsDeep.v
theories/Hooks.v
theories/HooksThm.v
theories/PropsUser.v
theories/KernelCont.v
theories/KernelCont2.v
theories/KernelCont3.v
theories/KernelCont4.v
theories/KernelCont5.v
theories/PropsCont.v
theories/KernelCont6.v
theories/KernelCont7.v
theories/KernelCont8.v
theories/KernelCont9.v
theories/PropsExact.v
theories/QweErr.v
theories/PropsQweErr.v
theories/FullCont.v
theories/FullCont2.v
theories/PropsFullCont.v
theories/Contrast.v
theories/Contrast2.v
theories/Contrast3.v
theories/Contrast4.v
theories/PropsContrast.v
