-Q theories Verif

theories/Num.v
theories/Types.v
theories/Priv.v
theories/OpsUni.v
theories/OpsAdd.v
theories/OpsSub.v
theories/OpsMul.v
theories/Const.v
theories/Validity.v
theories/Compare.v
theories/Func.v
theories/SpecCl.v
theories/RealInst.v
theories/AlgTac.v
theories/AlgMul.v
theories/AlgFacts.v
theories/AlgSpec.v
theories/AlgThm.v
theories/Prop_Algebra.v
theories/SpecFunc.v
theories/FuncFacts.v
theories/SpecExp.v
theories/ExpFacts.v
theories/ExpThm.v
theories/PiFacts.v
theories/LogThm.v
theories/FuncThm.v
theories/SpecAnti.v
theories/AntiThm.v
theories/Prop_Func.v
theories/SpecGeom.v
theories/GeomThm.v
theories/Prop_Geom.v
theories/Rel.v
theories/SpecTypes.v
theories/B64.v
theories/TypeFacts.v
theories/Prop_Types.v
theories/B64Facts.v
theories/Taint.v
theories/SpecValid.v
theories/ValidFacts.v
theories/NullFacts.v
theories/CompareFacts.v
theories/ArrFacts.v
theories/ValidThm.v
theories/Prop_Valid.v
theories/SpecCompare.v
theories/ArrErr.v
theories/CompareThm.v
theories/Prop_Compare.v
theories/SpecRound.v
theories/CommFacts.v
theories/IntFacts.v
theories/ErrFacts.v
theories/RoundThm.v
theories/Prop_Round.v
theories/SpecConst.v
theories/NearPi.v
theories/ConstThm.v
theories/Prop_Const.v
theories/Stream.v
theories/Io.v
theories/SpecText.v
theories/TextFacts.v
theories/ParseFacts.v
theories/SpecIo.v
theories/NumText.v
theories/InFacts.v
theories/OutFacts.v
theories/RoundTrip.v
theories/IoThm.v
theories/Prop_Io.v
theories/SpecAcc.v
theories/BoundFacts.v
theories/AccFacts.v
theories/NormFacts.v
theories/AccThm.v
theories/Prop_Acc.v
theories/ExpAcc.v
theories/LogAcc.v
theories/RootAcc.v
theories/Prop_Exp.v
theories/Prop_Log.v
theories/Traits.v
theories/SpecTraits.v
theories/TraitFacts.v
theories/Prop_Traits.v
theories/SpecSame.v
theories/SameFacts.v
theories/Prop_Same.v
theories/Power.v
theories/SpecPower.v
theories/PowerFacts.v
theories/Prop_Power.v
theories/SpecMirror.v
theories/MirrorFacts.v
theories/MirrorThm.v
theories/MirrorCmp.v
theories/Prop_Mirror.v
theories/RotAcc.v
theories/Prop_Rot.v
theories/SpecFma.v
theories/FmaFacts.v
theories/Prop_Fma.v
theories/SpecProg.v
theories/ProgFacts.v
theories/Prop_Prog.v
theories/SpecFile.v
theories/FileFacts.v
theories/Prop_File.v
theories/SpecDemo.v
theories/GeneralText.v
theories/Cout.v
theories/CoutFacts.v
theories/Prop_Cout.v
theories/SpecScale.v
theories/ScaleFacts.v
theories/ScaleThm.v
theories/Prop_Scale.v
theories/SpecAmp.v
theories/AmpFacts.v
theories/AmpThm.v
theories/AmpInv.v
theories/AmpEx.v
theories/Prop_Amp.v
theories/SpecBit.v
theories/BitFacts.v
theories/BitThm.v
theories/Prop_Bit.v
theories/SpecStable.v
theories/StableFacts.v
theories/Prop_Stable.v
theories/AcceptFacts.v
theories/Prop_Accept.v
theories/SpecChain.v
theories/ChainFacts.v
theories/Prop_Chain.v
theories/SpecLoop.v
theories/LoopFacts.v
theories/Prop_Loop.v
theories/ExpMvFacts.v
theories/ExpMvThm.v
theories/Prop_ExpMv.v
theories/SpecExtent.v
theories/ExtentFacts.v
theories/Prop_Extent.v
theories/SpecGrain.v
theories/GrainFacts.v
theories/Prop_Grain.v
theories/SpecSlerp.v
theories/SlerpThm.v
theories/Prop_Slerp.v
theories/TestExp.v
theories/TestExpFacts.v
theories/TestExpThm.v
theories/TestExp64.v
theories/Prop_TestExp.v
theories/SpecTrip.v
theories/TripFacts.v
theories/TripThm.v
theories/Prop_Trip.v
theories/SpecAngle.v
theories/AngleFacts.v
theories/AngleEx.v
theories/Prop_Angle.v
theories/SpecScal.v
theories/ScalFacts.v
theories/Prop_Scal.v
theories/SpecTurn.v
theories/TurnFacts.v
theories/TurnThm.v
theories/TurnEx.v
theories/Prop_Turn.v
theories/SpecFrame.v
theories/FrameFacts.v
theories/FrameThm.v
theories/FrameReal.v
theories/FrameEx.v
theories/Prop_Frame.v
theories/SpecAxes.v
theories/AxesFacts.v
theories/AxesThm.v
theories/AxesEx.v
theories/Prop_Axes.v
theories/SpecPrin.v
theories/PrinFacts.v
theories/Prop_Prin.v
theories/SpecCover.v
theories/CoverFacts.v
theories/CoverExp.v
theories/Prop_Cover.v
theories/SpecNear.v
theories/NearFacts.v
theories/NearThm.v
theories/NearMore.v
theories/Prop_Near.v
theories/SpecPolar.v
theories/PolarFacts.v
theories/Prop_Polar.v
theories/SpecMotion.v
theories/MotionFacts.v
theories/Prop_Motion.v
theories/PLogFacts.v
theories/Prop_PLog.v
theories/Headers.v
theories/Incl.v
theories/SpecIncl.v
theories/InclFacts.v
theories/InclLib.v
theories/Prop_Incl.v
theories/SpecOver.v
theories/OverFacts.v
theories/Prop_Over.v
theories/SpecPow.v
theories/PowAcc.v
theories/Prop_Pow.v
theories/SpecInterp.v
theories/InterpFacts.v
theories/InterpAcc.v
theories/Prop_Interp.v
theories/SpecToward.v
theories/TowardFacts.v
theories/TowardAcc.v
theories/Prop_Toward.v
theories/SpecGeomAcc.v
theories/GeomAcc.v
theories/GeomParts.v
theories/Prop_GeomAcc.v
theories/SpecReflSeq.v
theories/ReflSeq.v
theories/ReflAngle.v
theories/Prop_ReflSeq.v
