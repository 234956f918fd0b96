-Q theories Verif
theories/Base/Py.v
theories/Base/Arr.v
theories/Base/Vec.v
theories/Base/Sums.v
theories/Base/F64.v
theories/Model/PadCrop.v
theories/Proofs/PadCropP.v
theories/Props/PadCropProps.v
theories/Model/Check.v
theories/Spec/CheckSpec.v
theories/Proofs/CheckP.v
theories/Props/CheckProps.v
theories/Base/Trig.v
theories/Model/Math.v
theories/Spec/MathSpec.v
theories/Proofs/MathP.v
theories/Props/MathProps.v
theories/Base/Loop.v
theories/Base/Lstsq.v
theories/Model/Noll.v
theories/Spec/ZernikeSpec.v
theories/Proofs/NollP.v
theories/Proofs/ZernP.v
theories/Props/ZernProps.v
theories/Base/CSum.v
theories/Base/Fft.v
theories/Model/Fresnel.v
theories/Spec/FresnelSpec.v
theories/Proofs/FresnelP.v
theories/Model/Mft.v
theories/Model/Dm.v
theories/Model/Fits.v
theories/Model/Shapes.v
theories/Spec/MftSpec.v
theories/Spec/DmSpec.v
theories/Proofs/MftP.v
theories/Proofs/DmP.v
theories/Props/FourierProps.v
theories/Props/DmProps.v
theories/Spec/FitsSpec.v
theories/Spec/ShapesSpec.v
theories/Proofs/FitsP.v
theories/Proofs/ShapesP.v
theories/Props/FitsProps.v
theories/Proofs/ShapesE.v
theories/Props/ShapesProps.v
theories/Model/Yaml.v
theories/Model/DarkHole.v
theories/Spec/DarkHoleSpec.v
theories/Proofs/DarkHoleP.v
theories/Props/DarkHoleProps.v
theories/Model/GainMap.v
theories/Spec/GainMapSpec.v
theories/Proofs/GainMapP.v
theories/Props/GainMapProps.v
theories/Model/FocalFit.v
theories/Spec/FocalFitSpec.v
theories/Proofs/FocalFitP.v
theories/Props/FocalFitProps.v
theories/Model/Conjugate.v
theories/Spec/ConjugateSpec.v
theories/Proofs/ConjugateP.v
theories/Proofs/ConjugateCmdP.v
theories/Proofs/ConjugateEx.v
theories/Proofs/ConjugateR.v
theories/Props/ConjugateProps.v
theories/Model/PsfFit.v
theories/Spec/PsfFitSpec.v
theories/Proofs/PsfFitP.v
theories/Proofs/PsfFitEx.v
theories/Props/PsfFitProps.v
theories/Model/ThinFilm.v
theories/Spec/ThinFilmSpec.v
theories/Proofs/ThinFilmP.v
theories/Proofs/ThinFilmQ.v
theories/Proofs/ThinFilmR.v
theories/Proofs/ThinFilmS.v
theories/Props/ThinFilmProps.v
theories/Model/MaskGen.v
theories/Spec/MaskGenSpec.v
theories/Proofs/MaskGenP.v
theories/Proofs/MaskGenEx.v
theories/Props/MaskGenProps.v
theories/Spec/HlcSpec.v
theories/Proofs/MaskGenQ.v
theories/Proofs/MaskGenR.v
theories/Model/PupilUtil.v
theories/Spec/PupilUtilSpec.v
theories/Proofs/PupilUtilP.v
theories/Proofs/PupilUtilEx.v
theories/Props/PupilUtilProps.v
theories/Proofs/PupilUtilN.v
theories/Proofs/QuadFitP.v
theories/Proofs/PupilUtilL.v
theories/Proofs/PupilUtilC.v
theories/Model/Unwrap.v
theories/Spec/UnwrapSpec.v
theories/Proofs/UnwrapP.v
theories/Proofs/UnwrapEx.v
theories/Proofs/UnwrapM.v
theories/Props/UnwrapProps.v
theories/Model/Occastro.v
theories/Spec/OccastroSpec.v
theories/Proofs/OccastroP.v
theories/Proofs/OccastroEx.v
theories/Props/OccastroProps.v
theories/Model/DmReg.v
theories/Spec/DmRegSpec.v
theories/Proofs/DmRegP.v
theories/Proofs/DmRegQ.v
theories/Proofs/DmRegEx.v
theories/Proofs/DmRegEy.v
theories/Props/DmRegProps.v
theories/Model/PlateSolv.v
theories/Spec/PlateSolvSpec.v
theories/Spec/PlateSolvFSpec.v
theories/Proofs/PlateSolvP.v
theories/Proofs/PlateSolvQ.v
theories/Proofs/PlateSolvEx.v
theories/Proofs/PlateSolvF.v
theories/Props/PlateSolvProps.v
theories/Model/RectProper.v
theories/Spec/RectProperSpec.v
theories/Proofs/RectProperP.v
theories/Proofs/RectProperQ.v
theories/Props/RectProperProps.v
theories/Model/FitShapes.v
theories/Spec/FitShapesSpec.v
theories/Proofs/FitShapesP.v
theories/Proofs/FitShapesEx.v
theories/Props/FitShapesProps.v
theories/Model/PupilFit.v
theories/Spec/PupilFitSpec.v
theories/Proofs/PupilFitP.v
theories/Proofs/PupilFitQ.v
theories/Proofs/PupilFitO.v
theories/Proofs/PupilFitZ.v
theories/Proofs/PupilFitEx.v
theories/Props/PupilFitProps.v
theories/Model/MaskFit.v
theories/Spec/MaskFitSpec.v
theories/Proofs/MaskFitP.v
theories/Proofs/MaskFitZ.v
theories/Proofs/MaskFitL.v
theories/Proofs/MaskFitEx.v
theories/Proofs/MaskFitZEx.v
theories/Props/MaskFitProps.v
theories/Spec/DiskSpec.v
theories/Proofs/ZernOrth.v
theories/Proofs/ZernOrthD.v
theories/Props/ZernOrthProps.v
theories/Spec/ZernGridSpec.v
theories/Proofs/ZernGrid.v
theories/Proofs/ZernGridEx.v
theories/Props/ZernGridProps.v
theories/Model/QuadNum.v
theories/Proofs/QuadNumP.v
theories/Props/QuadNumProps.v
theories/Spec/SplineSpec.v
theories/Proofs/SplineP.v
theories/Proofs/GainSpline.v
theories/Proofs/GainSplineEx.v
theories/Props/GainSplineProps.v
theories/Spec/BiSplineSpec.v
theories/Proofs/BiSpline.v
theories/Proofs/BiSplineUse.v
theories/Proofs/BiSplineEx.v
theories/Props/BiSplineProps.v
theories/Spec/ProbeSpec.v
theories/Proofs/ProbeP.v
theories/Props/ProbeProps.v
theories/Proofs/GainLineP.v
theories/Props/GainLineProps.v
theories/Spec/SurfaceSpec.v
theories/Proofs/SurfaceP.v
theories/Model/MaskGenC.v
theories/Proofs/MaskGenCP.v
theories/Props/MaskGenCProps.v
theories/Spec/RefuseSpec.v
theories/Proofs/RefuseP.v
theories/Props/RefuseProps.v
theories/Proofs/RefuseQ.v
theories/Proofs/ConjugateAll.v
theories/Model/MaskGenF.v
theories/Spec/MaskGenFSpec.v
theories/Proofs/MaskGenFP.v
theories/Proofs/MaskGenFEx.v
theories/Props/MaskGenFProps.v
theories/Model/ShapesF.v
theories/Spec/ShapesFSpec.v
theories/Proofs/F64P.v
theories/Proofs/ShapesFP.v
theories/Proofs/ShapesFQ.v
theories/Proofs/ShapesFA.v
theories/Proofs/ShapesFEx.v
theories/Props/ShapesFProps.v
theories/Model/DarkHoleF.v
theories/Spec/DarkHoleFSpec.v
theories/Proofs/DarkHoleFP.v
theories/Proofs/DarkHoleFEx.v
theories/Props/DarkHoleFProps.v
theories/Proofs/RefuseR.v
theories/Model/SearchF.v
theories/Spec/SearchFSpec.v
theories/Proofs/SearchFP.v
theories/Proofs/SearchFEx.v
theories/Props/SearchFProps.v
theories/Spec/RefuseLibSpec.v
theories/Proofs/RefuseLib.v
theories/Props/RefuseLibProps.v
theories/Model/PadCropT.v
theories/Spec/PadCropTSpec.v
theories/Proofs/PadCropTP.v
theories/Props/PadCropTProps.v
theories/Model/FrameT.v
theories/Spec/FrameTSpec.v
theories/Proofs/FrameTP.v
theories/Props/FrameTProps.v
theories/Proofs/F64N.v
theories/Model/ShapesG.v
theories/Spec/ShapesGSpec.v
theories/Proofs/ShapesGP.v
theories/Proofs/ShapesGQ.v
theories/Proofs/ShapesGR.v
theories/Proofs/LibmRef.v
theories/Proofs/PiP.v
theories/Spec/ShapesASpec.v
theories/Proofs/ShapesGEx.v
theories/Props/ShapesGProps.v
theories/Proofs/ShapesGA.v
theories/Proofs/ShapesGB.v
theories/Props/ShapesAProps.v
theories/Model/BrightF.v
theories/Spec/BrightFSpec.v
theories/Proofs/BrightFP.v
theories/Proofs/BrightFQ.v
theories/Proofs/BrightFR.v
theories/Props/BrightFProps.v
theories/Model/PsfFitN.v
theories/Spec/PsfFitNSpec.v
theories/Proofs/PsfFitNP.v
theories/Props/PsfFitNProps.v
theories/Model/FocalFitF.v
theories/Spec/FocalFitFSpec.v
theories/Proofs/FocalFitFP.v
theories/Proofs/FocalFitFQ.v
theories/Proofs/FocalFitFR.v
theories/Proofs/FocalFitFS.v
theories/Proofs/FocalFitFT.v
theories/Proofs/FocalFitFEx.v
theories/Props/FocalFitFProps.v
theories/Spec/RefuseDmSpec.v
theories/Proofs/RefuseDm.v
theories/Proofs/FocalFitFU.v
theories/Props/RefuseDmProps.v
theories/Proofs/FocalFitFV.v
theories/Model/NollF.v
theories/Spec/NollFSpec.v
theories/Proofs/NollFP.v
theories/Proofs/NollFQ.v
theories/Proofs/NollFR.v
theories/Proofs/NollFEx.v
theories/Proofs/NollFS.v
theories/Props/NollFProps.v
theories/Spec/RefuseShapesSpec.v
theories/Proofs/RefuseShapes.v
theories/Props/RefuseShapesProps.v
theories/Model/MftF.v
theories/Spec/MftFSpec.v
theories/Proofs/MftFP.v
theories/Proofs/MftFQ.v
theories/Proofs/MftFR.v
theories/Proofs/MftFS.v
theories/Proofs/MftFRef.v
theories/Proofs/MftFEx.v
theories/Proofs/MftFRound.v
theories/Props/MftFProps.v
theories/Model/FresnelF.v
theories/Spec/FresnelFSpec.v
theories/Proofs/FresnelFP.v
theories/Proofs/FresnelFQ.v
theories/Proofs/FresnelFR.v
theories/Proofs/FresnelFEx.v
theories/Proofs/FresnelFEy.v
theories/Proofs/FresnelFRound.v
theories/Proofs/FresnelFfft.v
theories/Props/FresnelFProps.v
