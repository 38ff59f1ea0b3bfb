-Q theories Verif
theories/Base.v
theories/BaseFacts.v
theories/CentralDipoleProps.v
theories/CentralDipoleSpec.v
theories/DistanceModel.v
theories/DistanceProofs.v
theories/DistanceProps.v
theories/DistanceSpec.v
theories/EllipsoidFarProofs.v
theories/EllipsoidFarProps.v
theories/EllipsoidFieldProofs.v
theories/EllipsoidFieldProps.v
theories/EllipsoidIntProofs.v
theories/EllipsoidLambdaProofs.v
theories/EllipsoidLocalProofs.v
theories/EllipsoidMagProofs.v
theories/EllipsoidMagProps.v
theories/EllipsoidModel.v
theories/EllipsoidMoveProofs.v
theories/EllipsoidMoveProps.v
theories/EllipsoidObjectModel.v
theories/EllipsoidObjectProps.v
theories/EllipsoidProps.v
theories/EllipsoidRotProofs.v
theories/EllipsoidScaleProofs.v
theories/EllipsoidScaleProps.v
theories/EllipsoidScaleSpec.v
theories/EllipsoidShapeProofs.v
theories/EllipsoidSpec.v
theories/EllipsoidTopProofs.v
theories/EqsBoostErrorProps.v
theories/EqsBoostProofs.v
theories/EqsDtypeProps.v
theories/EqsExactFitProofs.v
theories/EqsExactProofs.v
theories/EqsExactProps.v
theories/EqsExactSpec.v
theories/EqsFieldProofs.v
theories/EqsFieldProps.v
theories/EqsFieldSpec.v
theories/EqsFitProofs.v
theories/EqsLinearProofs.v
theories/EqsLinearProps.v
theories/EqsLinearSpec.v
theories/EqsModel.v
theories/EqsProofs.v
theories/EqsProps.v
theories/EqsRegionProofs.v
theories/EqsRegionProps.v
theories/EqsRegionSpec.v
theories/EqsScaleProofs.v
theories/EqsScaleProps.v
theories/EqsScaleSpec.v
theories/EqsSpec.v
theories/EqsWindowProofs.v
theories/EulerFieldProofs.v
theories/EulerFrameProofs.v
theories/EulerFrameProps.v
theories/EulerFrameSpec.v
theories/EulerModel.v
theories/EulerProofs.v
theories/EulerProps.v
theories/EulerSpec.v
theories/FloatModel.v
theories/FloatProofs.v
theories/FloatProps.v
theories/FloatSpec.v
theories/FluxFieldProofs.v
theories/FluxProofs.v
theories/FluxProps.v
theories/FluxSpec.v
theories/FourierProofs.v
theories/IcgemModel.v
theories/IcgemProofs.v
theories/IcgemProps.v
theories/IcgemSpec.v
theories/IgrfMaxwellProofs.v
theories/IgrfMaxwellProps.v
theories/IgrfModel.v
theories/IgrfObjectModel.v
theories/IgrfObjectProps.v
theories/IgrfProofs.v
theories/IgrfProps.v
theories/IgrfSamplingProofs.v
theories/IgrfSamplingProps.v
theories/IgrfSpec.v
theories/IgrfTimeProofs.v
theories/LayerFieldProofs.v
theories/LayerModel.v
theories/LayerProofs.v
theories/LayerProps.v
theories/LayerSpec.v
theories/LayeredProps.v
theories/LayeredSpec.v
theories/LegendreDerivProofs.v
theories/LegendreFacts.v
theories/LegendreModel.v
theories/LegendreOrthoProofs.v
theories/LegendreOrthoProps.v
theories/LegendreProofs.v
theories/LegendreProps.v
theories/LegendreSpec.v
theories/MagneticProofs.v
theories/MassBoundsProofs.v
theories/MassBoundsProps.v
theories/NumPy.v
theories/NumPyFacts.v
theories/OasisModel.v
theories/OasisProofs.v
theories/OasisProps.v
theories/OasisSpec.v
theories/PointGravityModel.v
theories/PointGravityProofs.v
theories/PointGravityProps.v
theories/PointGravitySpec.v
theories/PointMoveProps.v
theories/PoissonProps.v
theories/PoissonSpec.v
theories/PolynomialProofs.v
theories/PrismFieldProofs.v
theories/PrismModel.v
theories/PrismProofs.v
theories/PrismProps.v
theories/PrismSpec.v
theories/ScheduleModel.v
theories/ScheduleProofs.v
theories/ScheduleProps.v
theories/ShellProofs.v
theories/ShellProps.v
theories/ShellSpec.v
theories/SphereIntProofs.v
theories/TesseroidAdaptProofs.v
theories/TesseroidCheckProofs.v
theories/TesseroidDensityFieldProofs.v
theories/TesseroidDensityModel.v
theories/TesseroidDensityProofs.v
theories/TesseroidDensityProps.v
theories/TesseroidDensitySpec.v
theories/TesseroidFieldProofs.v
theories/TesseroidFitProofs.v
theories/TesseroidFitProps.v
theories/TesseroidFitSpec.v
theories/TesseroidLimitIntProofs.v
theories/TesseroidLimitProofs.v
theories/TesseroidLimitProps.v
theories/TesseroidLimitSpec.v
theories/TesseroidMirrorProofs.v
theories/TesseroidMirrorProps.v
theories/TesseroidMirrorSpec.v
theories/TesseroidModel.v
theories/TesseroidProofs.v
theories/TesseroidProps.v
theories/TesseroidScaleProofs.v
theories/TesseroidScaleProps.v
theories/TesseroidScaleSpec.v
theories/TesseroidSpec.v
theories/TesseroidTurnProofs.v
theories/TesseroidTurnProps.v
theories/TesseroidTurnSpec.v
theories/TesseroidVariableLimitProofs.v
theories/TesseroidVariableLimitProps.v
theories/TesseroidVariableLimitSpec.v
theories/TransformFieldProofs.v
theories/TransformGridProps.v
theories/TransformLevelProofs.v
theories/TransformLevelProps.v
theories/TransformModel.v
theories/TransformNoiseProofs.v
theories/TransformNoiseProps.v
theories/TransformProofs.v
theories/TransformProps.v
theories/TransformRangeProofs.v
theories/TransformRangeProps.v
theories/TransformRangeSpec.v
theories/TransformSpec.v
theories/TransformSymmetryProofs.v
theories/TransformSymmetryProps.v
theories/UtilsModel.v
theories/UtilsProofs.v
theories/UtilsProps.v
theories/UtilsSpec.v
theories/VtkProofs.v
