-Q theories Verif
theories/Base/Ext.v
theories/Base/Num.v
theories/Base/Vec.v
theories/Base/VecFacts.v
theories/Model/Box.v
theories/Model/Closest.v
theories/Model/Constraint.v
theories/Model/Cylinder.v
theories/Model/Drip.v
theories/Model/Ellipsoid.v
theories/Model/Extremal.v
theories/Model/FloatShapes.v
theories/Model/FloatUtil.v
theories/Model/Geodesic.v
theories/Model/Identify.v
theories/Model/Inertial.v
theories/Model/Moment.v
theories/Model/MonteCarlo.v
theories/Model/MultiBody.v
theories/Model/Poly.v
theories/Model/Polydd.v
theories/Model/Print.v
theories/Model/Random.v
theories/Model/Realize.v
theories/Model/RigidBody.v
theories/Model/Spatial.v
theories/Model/Store.v
theories/Model/StoreInertial.v
theories/Model/StoreObjects.v
theories/Model/StoreShapes.v
theories/Model/TestUtil.v
theories/Model/Theory.v
theories/Model/Util.v
theories/Proofs/AabbP.v
theories/Proofs/AffineP.v
theories/Proofs/BallLawP.v
theories/Proofs/BasisP.v
theories/Proofs/BiasP.v
theories/Proofs/BlocksP.v
theories/Proofs/BlocksS.v
theories/Proofs/BoxP.v
theories/Proofs/CapsLawP.v
theories/Proofs/Carath.v
theories/Proofs/ClosestE.v
theories/Proofs/ClosestP.v
theories/Proofs/Compact.v
theories/Proofs/Cone.v
theories/Proofs/ConeId.v
theories/Proofs/ConeW.v
theories/Proofs/ConsistentP.v
theories/Proofs/ConstructP.v
theories/Proofs/ContInt.v
theories/Proofs/ContLaw.v
theories/Proofs/Coord.v
theories/Proofs/CylCustom.v
theories/Proofs/CylExact.v
theories/Proofs/CylExactW.v
theories/Proofs/CylP.v
theories/Proofs/DDP.v
theories/Proofs/Decomp.v
theories/Proofs/DensityP.v
theories/Proofs/DensityR.v
theories/Proofs/DensityS.v
theories/Proofs/Drip.v
theories/Proofs/DripCut.v
theories/Proofs/DripV.v
theories/Proofs/DripW.v
theories/Proofs/DripX.v
theories/Proofs/DualBox.v
theories/Proofs/DualCone.v
theories/Proofs/DualPoly.v
theories/Proofs/Duality.v
theories/Proofs/Dynamics.v
theories/Proofs/EllForms.v
theories/Proofs/EllMore.v
theories/Proofs/EllP.v
theories/Proofs/EllPairP.v
theories/Proofs/EllSame.v
theories/Proofs/Exist.v
theories/Proofs/ExistB.v
theories/Proofs/ExistC.v
theories/Proofs/ExistW.v
theories/Proofs/ExpectP.v
theories/Proofs/ExtremalEx.v
theories/Proofs/ExtremalOpt.v
theories/Proofs/ExtremalP.v
theories/Proofs/Farkas.v
theories/Proofs/Feas.v
theories/Proofs/FloatBoundP.v
theories/Proofs/FloatEllP.v
theories/Proofs/FloatP.v
theories/Proofs/FloatShapesP.v
theories/Proofs/GeodesicP.v
theories/Proofs/GridP.v
theories/Proofs/Hull.v
theories/Proofs/IdentifyP.v
theories/Proofs/IdentifyW.v
theories/Proofs/InertialP.v
theories/Proofs/InertialT.v
theories/Proofs/InscribedP.v
theories/Proofs/IntegralP.v
theories/Proofs/JohnE.v
theories/Proofs/JohnEx.v
theories/Proofs/JohnM.v
theories/Proofs/JohnR.v
theories/Proofs/JohnU.v
theories/Proofs/JohnX.v
theories/Proofs/LinAlg.v
theories/Proofs/LogDet.v
theories/Proofs/MatAlg.v
theories/Proofs/MieAffineP.v
theories/Proofs/MomentP.v
theories/Proofs/MonoInt.v
theories/Proofs/MonteCarloP.v
theories/Proofs/MonteCarloQ.v
theories/Proofs/MonteCarloR.v
theories/Proofs/MoreEx.v
theories/Proofs/Motion.v
theories/Proofs/MotionW.v
theories/Proofs/MultiP.v
theories/Proofs/MustContain.v
theories/Proofs/OracleP.v
theories/Proofs/PimP.v
theories/Proofs/PolyP.v
theories/Proofs/PolynomialP.v
theories/Proofs/PrintP.v
theories/Proofs/QConc.v
theories/Proofs/QMeasure.v
theories/Proofs/QModule.v
theories/Proofs/RandomE.v
theories/Proofs/RandomP.v
theories/Proofs/RandomS.v
theories/Proofs/RealizeE.v
theories/Proofs/RealizeP.v
theories/Proofs/RealizeW.v
theories/Proofs/RealizeX.v
theories/Proofs/RectP.v
theories/Proofs/RefutedP.v
theories/Proofs/RejectLaw.v
theories/Proofs/RigidP.v
theories/Proofs/RigidW.v
theories/Proofs/SampleDD.v
theories/Proofs/SamplesP.v
theories/Proofs/SamplingP.v
theories/Proofs/SdpClosed.v
theories/Proofs/SdpGap.v
theories/Proofs/SdpGapW.v
theories/Proofs/SdpLimit.v
theories/Proofs/SdpLimitB.v
theories/Proofs/SdpLimitW.v
theories/Proofs/SdpP.v
theories/Proofs/SdpSound.v
theories/Proofs/ShapesW.v
theories/Proofs/SimilarP.v
theories/Proofs/SolidP.v
theories/Proofs/SpatialRand.v
theories/Proofs/Spectral.v
theories/Proofs/SpectralUse.v
theories/Proofs/Stable.v
theories/Proofs/StableW.v
theories/Proofs/StoreExamples.v
theories/Proofs/StoreFinal.v
theories/Proofs/StoreInertialP.v
theories/Proofs/StoreMiscP.v
theories/Proofs/StoreMultiP.v
theories/Proofs/StoreObjectsP.v
theories/Proofs/StoreP.v
theories/Proofs/StoreShapesP.v
theories/Proofs/StoreShapesW.v
theories/Proofs/StoreW.v
theories/Proofs/SymmetryP.v
theories/Proofs/TestUtilP.v
theories/Proofs/TheoryP.v
theories/Proofs/TheoryQ.v
theories/Proofs/TheoryR.v
theories/Proofs/TransformP.v
theories/Proofs/TurnsP.v
theories/Proofs/UniformP.v
theories/Proofs/UtilP.v
theories/Proofs/VertexP.v
theories/Proofs/VolumeC.v
theories/Proofs/VolumeP.v
theories/Proofs/VolumeV.v
theories/Proofs/WeightsP.v
theories/Properties/Affine.v
theories/Properties/BallLaw.v
theories/Properties/Bodies.v
theories/Properties/Bounding.v
theories/Properties/Closest.v
theories/Properties/Cones.v
theories/Properties/Constructors.v
theories/Properties/ContinuousLaw.v
theories/Properties/Cylinders.v
theories/Properties/Density.v
theories/Properties/Dynamics.v
theories/Properties/Ellipsoids.v
theories/Properties/Exist.v
theories/Properties/Extremal.v
theories/Properties/Extreme.v
theories/Properties/Floats.v
theories/Properties/Identify.v
theories/Properties/Inertial.v
theories/Properties/John.v
theories/Properties/JointLaw.v
theories/Properties/Limits.v
theories/Properties/Moments.v
theories/Properties/MonteCarlo.v
theories/Properties/Motion.v
theories/Properties/Multi.v
theories/Properties/Oracles.v
theories/Properties/Polyhedra.v
theories/Properties/Printing.v
theories/Properties/Random.v
theories/Properties/Realizability.v
theories/Properties/RejectLaw.v
theories/Properties/Relaxations.v
theories/Properties/Rounding.v
theories/Properties/Sampling.v
theories/Properties/Sharing.v
theories/Properties/Similar.v
theories/Properties/SolidLaw.v
theories/Properties/Spectral.v
theories/Properties/Stable.v
theories/Properties/SurfaceBias.v
theories/Properties/SurfaceLaw.v
theories/Properties/Symmetry.v
theories/Properties/TestUtil.v
theories/Properties/Tests.v
theories/Properties/Theory.v
theories/Properties/UniformLaw.v
theories/Properties/Utilities.v
theories/Properties/Volumes.v
theories/Properties/Weights.v
theories/Spec/Basic.v
theories/Spec/Blocks.v
theories/Spec/Bodies.v
theories/Spec/ClosestSpec.v
theories/Spec/Cone.v
theories/Spec/Continuous.v
theories/Spec/DoubleDesc.v
theories/Spec/Exchangeable.v
theories/Spec/Exist.v
theories/Spec/Expect.v
theories/Spec/ExtremalSpec.v
theories/Spec/Extreme.v
theories/Spec/Floats.v
theories/Spec/Geodesic.v
theories/Spec/Identify.v
theories/Spec/Integrals.v
theories/Spec/John.v
theories/Spec/Limit.v
theories/Spec/Matching.v
theories/Spec/Moments.v
theories/Spec/Motion.v
theories/Spec/Multi.v
theories/Spec/Objects.v
theories/Spec/PolySpec.v
theories/Spec/Quadratic.v
theories/Spec/RandomSpec.v
theories/Spec/Realizable.v
theories/Spec/Rounding.v
theories/Spec/Samples.v
theories/Spec/ShapeObjects.v
theories/Spec/Shapes.v
theories/Spec/Sharing.v
theories/Spec/SharingObjects.v
theories/Spec/Solid.v
theories/Spec/Stable.v
theories/Spec/Symmetric.v
theories/Spec/Text.v
theories/Spec/Turns.v
theories/Spec/Uniform.v
