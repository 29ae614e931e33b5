-Q theories Verif
theories/UtilsModel.v
theories/UtilsSpec.v
theories/UtilsProofs.v
theories/UtilsProps.v
theories/RVec.v
theories/StereoModel.v
theories/GyroAlgebra.v
theories/StereoTrig.v
theories/StereoSpec.v
theories/StereoProofs.v
theories/StereoProofs2.v
theories/StereoProofs3.v
theories/StereoBatchModel.v
theories/StereoProofs4.v
theories/StereoApprox.v
theories/StereoApprox2.v
theories/StereoApproxProps.v
theories/StereoProps.v
theories/SphereModel.v
theories/SphereSpec.v
theories/SphereProofs.v
theories/SphereProofs2.v
theories/SphereProps.v
theories/BaseModel.v
theories/TensorModel.v
theories/BaseProofs.v
theories/TensorSpec.v
theories/TensorProofs.v
theories/NumProofs.v
theories/BaseProps.v
theories/ScaledModel.v
theories/LibraryModel.v
theories/ScaledClassModel.v
theories/ScaledProofs.v
theories/ScaledSpec.v
theories/ScaledProofs2.v
theories/ScaledProps.v
theories/ProductModel.v
theories/ProductNumModel.v
theories/ProductSpec.v
theories/ProductProofs.v
theories/ProductNumProofs.v
theories/ProductProps.v
theories/StiefelModel.v
theories/StiefelSpec.v
theories/StiefelProofs.v
theories/StiefelProps.v
theories/FieldTac.v
theories/Spectral.v
theories/SpdModel.v
theories/SpdSpec.v
theories/SpdProofs.v
theories/SpdProofs2.v
theories/SpdProofs3.v
theories/RStruct.v
theories/SpdProps.v
theories/BirkhoffModel.v
theories/BirkhoffSpec.v
theories/BirkhoffProofs.v
theories/BirkhoffProofs2.v
theories/BirkhoffProps.v
theories/LorentzModel.v
theories/LorentzSpec.v
theories/LorentzProofs.v
theories/LorentzProofs2.v
theories/LorentzProofs3.v
theories/LorentzProps.v
theories/OptimModel.v
theories/OptimSpec.v
theories/OptimProofs.v
theories/OptimProofs2.v
theories/OptimProofs3.v
theories/OptimInstances.v
theories/OptimProps.v
theories/LineSearchModel.v
theories/LineSearchSpec.v
theories/LineSearchProofs.v
theories/LineSearchProofs2.v
theories/LineSearchProofs3.v
theories/LineSearchProofs4.v
theories/LineSearchProofs5.v
theories/LineSearchInstances.v
theories/LineSearchProps.v
theories/LineSearchCgSpec.v
theories/LineSearchCg.v
theories/LineSearchCgInst.v
theories/LineSearchCgProps.v
theories/SparseModel.v
theories/SparseSpec.v
theories/SparseProofs.v
theories/SparseProofs2.v
theories/SparseProps.v
theories/SparseInst.v
theories/SparseInvProps.v
theories/SamplerModel.v
theories/SamplerSpec.v
theories/SamplerProofs.v
theories/SamplerProofs2.v
theories/SamplerProofs3.v
theories/SamplerProofs4.v
theories/SamplerProofs5.v
theories/SamplerInstances.v
theories/SamplerExtra.v
theories/SamplerProps.v
theories/TreeModel.v
theories/TreeSpec.v
theories/TreeProofs.v
theories/TreeProofs2.v
theories/TreeProps.v
theories/NdModel.v
theories/NdSpec.v
theories/NdProofs.v
theories/LayerModel.v
theories/LayerSpec.v
theories/LayerProofs.v
theories/StereoPlane.v
theories/StereoPlaneInst.v
theories/LayerProps.v
theories/StereoCo.v
theories/StereoCoInst.v
theories/StereoTaylor.v
theories/PiBounds.v
theories/StereoAntipode.v
theories/StereoMoreProps.v
theories/StereoExtraModel.v
theories/StereoExtraSpec.v
theories/StereoExtraProofs.v
theories/StereoExtraNd.v
theories/StereoMidpoint.v
theories/StereoMidpoint2.v
theories/StereoMidpoint3.v
theories/StereoMidpoint4.v
theories/StereoClass.v
theories/StereoExtraInst.v
theories/StereoExtraProps.v
theories/StereoClassProps.v
theories/SiegelModel.v
theories/SiegelSpec.v
theories/SiegelProofs.v
theories/SiegelProofs2.v
theories/SiegelProofs3.v
theories/SiegelProofs4.v
theories/SiegelProofs5.v
theories/SiegelProofs6.v
theories/SiegelProofs7.v
theories/SiegelProofs8.v
theories/SiegelProofs9.v
theories/SiegelProofs10.v
theories/SiegelProofs11.v
theories/SiegelProofs12.v
theories/SiegelProofs13.v
theories/SiegelInst.v
theories/SiegelProofs14.v
theories/SiegelProps.v
theories/EuclideanModel.v
theories/EuclideanSpec.v
theories/EuclideanProofs.v
theories/EuclideanProofs2.v
theories/EuclideanProps.v
theories/StereoNdModel.v
theories/StereoNdSpec.v
theories/StereoNdProofs.v
theories/StereoNdProofs2.v
theories/StereoNdProofs3.v
theories/StereoNdInst.v
theories/StereoNdProps.v
theories/StereoMidNdProofs.v
theories/StereoMidNdInst.v
theories/StereoMidNdProps.v
theories/LorentzNdModel.v
theories/LorentzNdSpec.v
theories/LorentzNdProofs.v
theories/LorentzNdProofs2.v
theories/LorentzNdProofs3.v
theories/LorentzNdInst.v
theories/LorentzNdDim.v
theories/LorentzNdProps.v
theories/SphereNdModel.v
theories/SphereNdSpec.v
theories/SphereNdProofs.v
theories/SphereNdInst.v
theories/SphereNdProps.v
theories/MatNdModel.v
theories/MatNdShape.v
theories/MatNdSpec.v
theories/MatNdProofs.v
theories/StiefelNdModel.v
theories/StiefelNdProofs.v
theories/StiefelNdInst.v
theories/StiefelNdProps.v
theories/SpdNdModel.v
theories/SpdNdProofs.v
theories/SpdNdInst.v
theories/SpdNdProps.v
theories/BirkhoffNdModel.v
theories/BirkhoffNdSpec.v
theories/BirkhoffNdProofs.v
theories/BirkhoffNdInst.v
theories/BirkhoffNdProps.v
theories/SiegelNdModel.v
theories/SiegelNdSpec.v
theories/SiegelNdProofs.v
theories/SiegelNdProofs2.v
theories/SiegelNdProofs3.v
theories/SiegelNdInst.v
theories/SiegelNdProps.v
theories/FloatModel.v
theories/FloatSpec.v
theories/FloatProofs.v
theories/FloatProofs2.v
theories/FloatProofs3.v
theories/FloatProofs4.v
theories/FloatProofs5.v
theories/FloatProofs6.v
theories/FloatProofs7.v
theories/FloatProofs8.v
theories/FloatInst.v
theories/FloatMain.v
theories/FloatProps.v
theories/GradSpec.v
theories/GradProofs.v
theories/GradProofs2.v
theories/GradProofs3.v
theories/GradInst.v
theories/GradProps.v
theories/DescentSpec.v
theories/DescentProofs.v
theories/DescentProofs2.v
theories/DescentProofs3.v
theories/DescentInst.v
theories/DescentProps.v
theories/MatDescentSpec.v
theories/MatDescentProofs.v
theories/MatDescentProofs2.v
theories/MatDescentProofs3.v
theories/MatDescentInst.v
theories/MatDescentProps.v
theories/SiegelDescentSpec.v
theories/SiegelDescentProofs.v
theories/SiegelDescentProps.v
theories/OptimDecaySpec.v
theories/OptimDecayProofs.v
theories/OptimDecayProps.v
theories/MatDecayProofs.v
theories/MatDecayProps.v
theories/OptimDescentSpec.v
theories/OptimDescentProofs.v
theories/OptimDescentProofs2.v
theories/OptimDescentProps.v
theories/ProductOptimModel.v
theories/ProductOptimSpec.v
theories/ProductOptimProofs.v
theories/ProductOptimInst.v
theories/ProductOptimProps.v
theories/ScaledOptimModel.v
theories/ScaledOptimProofs.v
theories/ScaledOptimProps.v
theories/RotationSpec.v
theories/RotationProofs.v
theories/RotationInst.v
theories/RotationProps.v
theories/BoostSpec.v
theories/BoostProofs.v
theories/BoostProps.v
theories/GroupingSpec.v
theories/GroupingProofs.v
theories/GroupingProps.v
theories/MatSymModel.v
theories/MatSymSpec.v
theories/MatSymProofs.v
theories/MatSymProofs2.v
theories/MatSymProofs3.v
theories/MatSymProps.v
theories/MatLoopModel.v
theories/MatLoopProofs.v
theories/MatLoopProps.v
theories/SeriesFacts.v
theories/RExp.v
theories/MatGeoSpec.v
theories/MatGeoProofs.v
theories/MatGeoInst.v
theories/MatGeoDescent.v
theories/MatGeoProps.v
theories/MatInvProofs.v
theories/MatInvInst.v
theories/MatInvProps.v
theories/MatStepSpec.v
theories/MatStepProofs.v
theories/MatStepProps.v
theories/CheckpointModel.v
theories/CheckpointSpec.v
theories/CheckpointProofs.v
theories/CheckpointInst.v
theories/CheckpointProps.v
theories/CheckpointLsModel.v
theories/CheckpointLsInst.v
theories/CheckpointLsProps.v
theories/FixedSpec.v
theories/FixedProofs.v
theories/FixedInst.v
theories/FixedProps.v
theories/FixedMatSpec.v
theories/FixedMat.v
theories/FixedMatProps.v
theories/SphereConvSpec.v
theories/SphereConvProofs.v
theories/SphereConvInst.v
theories/SphereConvProps.v
theories/RayleighSpec.v
theories/RayleighProofs.v
theories/RayleighInst.v
theories/RayleighProps.v
theories/FlatConvSpec.v
theories/FlatConvProofs.v
theories/FlatConvInst.v
theories/FlatConvProps.v
