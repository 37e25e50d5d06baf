-Q theories Verif
theories/Base.v
theories/MortonModel.v
theories/MortonProofs.v
theories/OctreeSpec.v
theories/OctreeGeom.v
theories/OctreeModel.v
theories/FindNeighbors.v
theories/MarkerProofs.v
theories/MarkerLoop.v
theories/ApplyProofs.v
theories/MeshSpec.v
theories/GhostProofs.v
theories/GhostExchange.v
theories/AdaptProofs.v
theories/BalanceLists.v
theories/BalanceProofs.v
theories/BalanceMain.v
theories/LevelShift.v
theories/InitProofs.v
theories/HistorySpec.v
theories/HistoryProofs.v
theories/RefineModel.v
theories/RefineProps.v
theories/OctreeProps.v
theories/CommSpec.v
theories/CommModel.v
theories/CommProofs.v
theories/MortonProps.v
theories/CommProps.v
theories/IndexModel.v
theories/IndexProps.v
theories/LookupSpec.v
theories/LookupModel.v
theories/LookupProps.v
theories/CellModel.v
theories/CellSpec.v
theories/CellProofs.v
theories/CellProps.v
theories/CellConvProps.v
theories/CellIterProps.v
theories/FaceMaskModel.v
theories/FaceMaskProps.v
theories/FaceCommProps.v
theories/FaceAxis.v
theories/FaceSuffProps.v
theories/FieldModel.v
theories/FieldSpec.v
theories/FieldProofs.v
theories/FieldProps.v
theories/FieldBalanceProps.v
theories/RemapModel.v
theories/RemapSpec.v
theories/RemapProofs.v
theories/RemapProps.v
theories/TimeModel.v
theories/TimeSpec.v
theories/TimeProps.v
theories/TimeRunProps.v
theories/TimeStepProps.v
theories/ConfigModel.v
theories/ConfigSpec.v
theories/ConfigProofs.v
theories/ConfigProps.v
theories/ConfigOutput.v
theories/ConfigIOProps.v
theories/RegistryModel.v
theories/RegistryProps.v
theories/HydroModel.v
theories/HydroSpec.v
theories/HydroProps.v
theories/ConserveSpec.v
theories/BlockGhost.v
theories/ConserveFaces.v
theories/ConserveProofs.v
theories/ConserveProps.v
theories/SchemeSpec.v
theories/SchemeProps.v
theories/RiemannProps.v
theories/RestartModel.v
theories/RestartProps.v
theories/CleanProps.v
theories/CosmoModel.v
theories/CosmoProps.v
theories/CacheModel.v
theories/CacheProps.v
theories/SmallerProps.v
theories/ParticleSpec.v
theories/ParticleModel.v
theories/ParticleProofs.v
theories/ParticleProps.v
theories/CloudProofs.v
theories/CloudProps.v
theories/LocateProps.v
theories/CGTheory.v
theories/GravitySpec.v
theories/GravityModel.v
theories/GravityFaces.v
theories/GravityProofs.v
theories/GravityOp.v
theories/GravityLoop.v
theories/GravityForce.v
theories/GravityProps.v
theories/OutputModel.v
theories/OutputSpec.v
theories/OutputProps.v
theories/AnalyticModel.v
theories/AnalyticSpec.v
theories/AnalyticProofs.v
theories/AnalyticProps.v
theories/RKModel.v
theories/RKSpec.v
theories/RKProofs.v
theories/RKProps.v
theories/ParabolicModel.v
theories/ParabolicSpec.v
theories/ParabolicProofs.v
theories/ParabolicRun.v
theories/ParabolicProps.v
theories/ParticleGridModel.v
theories/ParticleGridSpec.v
theories/ParticleGridProofs.v
theories/ParticleGridRun.v
theories/ParticleGridProps.v
theories/HancockModel.v
theories/HancockSpec.v
theories/HancockProofs.v
theories/HancockProps.v
theories/CoolingModel.v
theories/CoolingSpec.v
theories/CoolingProofs.v
theories/CoolingProps.v
theories/CriterionModel.v
theories/CriterionSpec.v
theories/CriterionProofs.v
theories/FaceTouch.v
theories/CriterionSecond.v
theories/CriterionProps.v
theories/LimiterModel.v
theories/LimiterSpec.v
theories/LimiterProofs.v
theories/LimiterProps.v
theories/TracerModel.v
theories/TracerProps.v
theories/PointMassModel.v
theories/PointMassProps.v
theories/ParticleStepModel.v
theories/ParticleStepProps.v
theories/FortranModel.v
theories/FortranProps.v
theories/SimpleParticlesModel.v
theories/SimpleParticlesProps.v
theories/CourantModel.v
theories/CourantProps.v
theories/ScalarModel.v
theories/ScalarProps.v
