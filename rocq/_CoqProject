-Q theories Verif
theories/Base.v
theories/TimeModel.v
theories/TimeSpec.v
theories/TimeProofs.v
theories/PropTime.v
theories/IntStrModel.v
theories/IntStrSpec.v
theories/IntStrProofs.v
theories/PropIntStr.v
theories/MTModel.v
theories/MTSpec.v
theories/MTProofs.v
theories/MTProofs2.v
theories/PropMT.v
theories/ShuffleModel.v
theories/ShuffleSpec.v
theories/ShuffleProofs.v
theories/PropShuffle.v
theories/Scalar.v
theories/ConstModel.v
theories/VecModel.v
theories/RSpec.v
theories/RLib.v
theories/OrdLib.v
theories/B64Lib.v
theories/ConstSpec.v
theories/ConstProofs.v
theories/PropConst.v
theories/VecSpec.v
theories/VecProofs.v
theories/VecProofs2.v
theories/VecProofs3.v
theories/VecProofs4.v
theories/VecProofs5.v
theories/PropVec.v
theories/RotModel.v
theories/RotSpec.v
theories/MatLib.v
theories/RotProofs.v
theories/RotProofs2.v
theories/RotProofs3.v
theories/RotProofs4.v
theories/RotProofs5.v
theories/RotProofs6.v
theories/RotProofs7.v
theories/PropRot.v
theories/QuatModel.v
theories/QuatSpec.v
theories/QuatProofs.v
theories/QuatProofs2.v
theories/QuatProofs3.v
theories/QuatProofs4.v
theories/QuatProofs5.v
theories/QuatProofs6.v
theories/QuatProofs7.v
theories/PropQuat.v
theories/ValidSpec.v
theories/ValidProofs.v
theories/PropValid.v
theories/ShapeModel.v
theories/IntersectModel.v
theories/ShapeSpec.v
theories/ShapeProofs.v
theories/ShapeProofs2.v
theories/B64Ops.v
theories/ShapeProofs3.v
theories/PropBox.v
theories/BallProofs.v
theories/PropBall.v
theories/SphereProofs.v
theories/PropSphere.v
theories/SegProofs.v
theories/SegProofs2.v
theories/SegProofs3.v
theories/SegProofs4.v
theories/PropSeg.v
theories/RbProofs.v
theories/RbProofs2.v
theories/SatProofs.v
theories/SatProofs2.v
theories/PropRotBox.v
theories/HellyProofs.v
theories/SatProofs3.v
theories/SatProofs4.v
theories/SatProofs5.v
theories/PropSat.v
theories/PolyModel.v
theories/MotionSpec.v
theories/MotionProofs.v
theories/MotionProofs2.v
theories/PropMotion.v
theories/PropCoord.v
theories/PropSelf.v
theories/PolySpec.v
theories/PolyProofs.v
theories/PropPoly.v
theories/PolyIntersectModel.v
theories/EvenOddSpec.v
theories/EvenOddProofs.v
theories/PropPolyPoint.v
theories/StreamModel.v
theories/StreamSpec.v
theories/StreamProofs.v
theories/StreamProofs2.v
theories/PropStream.v
theories/AtlasModel.v
theories/AtlasSpec.v
theories/AtlasProofs.v
theories/PropAtlas.v
theories/MiniballModel.v
theories/MiniballSpec.v
theories/MiniballProofs.v
theories/MiniballProofs2.v
theories/MiniballProofs3.v
theories/MiniballProofs4.v
theories/MiniballProofs5.v
theories/PropMiniball.v
theories/ProbModel.v
theories/Stirling.v
theories/GammaSpec.v
theories/GammaProofs.v
theories/BernoulliSpec.v
theories/ProbSpec.v
theories/ProbProofs.v
theories/ProbProofs2.v
theories/ProbProofs3.v
theories/ProbProofs4.v
theories/ProbProofs5.v
theories/ProbProofs6.v
theories/ProbProofs7.v
theories/PropProb.v
theories/RegionSpec.v
theories/RegionProofs.v
theories/PolyShapeProofs.v
theories/PolyShapeProofs2.v
theories/PolyBoxProofs.v
theories/PolyBoxProofs2.v
theories/PolyRbProofs.v
theories/PropPolyShape.v
theories/SpaceSpec.v
theories/PolySpaceProofs.v
theories/PolySpaceProofs2.v
theories/PolySpaceProofs3.v
theories/PolySpaceProofs4.v
theories/PolySpaceProofs5.v
theories/PropSpace.v
theories/PolyPolyModel.v
theories/PolyPolyProofs.v
theories/PolyPolyProofs2.v
theories/PolyPolyProofs3.v
theories/PolyPolyProofs4.v
theories/PropPolyPoly.v
theories/RandModel.v
theories/RandSpec.v
theories/MTProofs3.v
theories/FloatOps.v
theories/RandProofs.v
theories/PropRand.v
theories/PolySphereModel.v
theories/PolyBoundProofs.v
theories/PropPolyBound.v
theories/SineProduct.v
theories/PropGamma.v
theories/GaussInt.v
theories/MillsProofs.v
theories/MillsProofs2.v
theories/GaussSeries.v
theories/GaussProofs.v
theories/PropGauss.v
theories/DetSign3.v
theories/PropParity.v
theories/DriftProofs.v
theories/PropDrift.v
theories/AngleProofs.v
theories/PropAngle.v
theories/TolProofs.v
theories/TolProofs2.v
theories/PropTol.v
theories/WrapModel.v
theories/WrapProofs.v
theories/PropWrap.v
theories/RoundLib.v
theories/RoundSpec.v
theories/RoundProofs.v
theories/RoundProofs2.v
theories/RoundProofs3.v
theories/RoundProofs4.v
theories/RoundProofs5.v
theories/PropRound.v
theories/BoxDouble.v
theories/PropBoxDouble.v
theories/BallDouble.v
theories/PropBallDouble.v
theories/DecModel.v
theories/DecSpec.v
theories/DecProofs.v
theories/DecProofs2.v
theories/DecProofs3.v
theories/PropDec.v
theories/PolySpaceLine.v
theories/PropSpaceLine.v
theories/QuatRoundSpec.v
theories/QuatRound.v
theories/QuatRound2.v
theories/QuatRound3.v
theories/PropQuatDouble.v
theories/PolySpaceSeg.v
theories/PropSpaceSeg.v
theories/QuatRound4.v
theories/QuatRound5.v
theories/PropQuatDouble2.v
theories/RotRoundSpec.v
theories/RotRound.v
theories/PropRotDouble.v
theories/PropRotDouble2.v
theories/PropPolyPoly2.v
theories/PropSelf2.v
theories/CoordRound.v
theories/PropCoordDouble.v
theories/SphereDouble.v
theories/PropSphereDouble.v
theories/RbDouble.v
theories/OwnDouble.v
theories/PropOwnDouble.v
theories/PropMoveDouble.v
theories/PropMoveDouble2.v
theories/PropDec2.v
theories/LitModel.v
theories/LitProofs.v
theories/LitRound.v
theories/PropLit.v
theories/SegDouble.v
theories/SegDouble2.v
theories/PropSegDouble.v
theories/MTInverse.v
theories/PropMTInverse.v
theories/MTLive.v
theories/PropMTLive.v
theories/SegBallDouble.v
theories/PropSegBallDouble.v
theories/SegPointTol.v
theories/PropSegPointTol.v
theories/SegPointDouble.v
theories/PropSegPointDouble.v
theories/PropSegBallTol.v
theories/ProbDoubleModel.v
theories/ProbDoubleSpec.v
theories/GaussDouble.v
theories/PropGaussDouble.v
theories/PoissonDouble.v
theories/PropPoissonDouble.v
theories/TailDouble.v
theories/PropTailDouble.v
theories/SeriesDouble.v
theories/PropSeriesDouble.v
theories/TailDouble2.v
theories/SeriesDouble2.v
theories/PropSeriesDouble2.v
theories/LogGammaDouble.v
theories/PropLogGammaDouble.v
theories/PoissonDouble2.v
theories/PropPoissonDouble2.v
theories/LogGammaDouble2.v
theories/PropLogGammaDouble2.v
theories/PropGaussDouble2.v
theories/PropAge.v
