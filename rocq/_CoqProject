-Q theories Verif
theories/Py.v
theories/PyLemmas.v
theories/MeshModel.v
theories/MeshSpec.v
theories/MeshProofs.v
theories/MeshSquare.v
theories/MeshSize.v
theories/MeshOther.v
theories/MeshFinite.v
theories/MeshFinal.v
theories/MeshSqrt.v
theories/MeshThms.v
theories/Calc.v
theories/Legendre.v
theories/Cheb.v
theories/DGModel.v
theories/DGSpec.v
theories/DGProofs.v
theories/DGInt.v
theories/DGBalance.v
theories/DGFinal.v
theories/DGThms.v
theories/GmatModel.v
theories/SpherePoly.v
theories/SphereProofs.v
theories/MatModel.v
theories/Picard.v
theories/ExistSpec.v
theories/ExistProofs.v
theories/UniqueFin.v
theories/ExistThms.v
theories/ReaderModel.v
theories/SelfTestModel.v
theories/RhsModel.v
theories/RhsProofs.v
theories/SphereBal.v
theories/SphereWeak.v
theories/SphereThms.v
theories/RhsThms.v
theories/FuncModel.v
theories/FuncProofs.v
theories/FuncLobatto.v
theories/FuncThms.v
theories/SourceModel.v
theories/SourceProofs.v
theories/SourceMore.v
theories/SourceGauss.v
theories/SourceIC.v
theories/SourceThms.v
theories/ClosureModel.v
theories/ClosureProofs.v
theories/ClosureThms.v
theories/OutModel.v
theories/OutProofs.v
theories/OutThms.v
theories/ConfigModel.v
theories/ConfigData.v
theories/StoreModel.v
theories/StoreProofs.v
theories/StoreThms.v
theories/DriverModel.v
theories/ConfigThms.v
theories/DriverThms.v
theories/DiskThms.v
theories/WaveThms.v
theories/SplineModel.v
theories/GaussProofs.v
theories/SplineProofs.v
theories/SplineShape.v
theories/SplineThms.v
theories/StabSpec.v
theories/StabProofs.v
theories/StabThms.v
theories/FrontSpec.v
theories/MeshWave.v
theories/FrontProofs.v
theories/FrontThms.v
theories/BenchModel.v
theories/BenchProofs.v
theories/BenchThms.v
theories/EstimateModel.v
theories/EstimateThms.v
theories/ErrSpec.v
theories/ErrLeib.v
theories/ErrProofs.v
theories/ErrEnergy.v
theories/ErrApprox.v
theories/ErrThms.v
theories/PosProofs.v
theories/PosThms.v
theories/SymSpec.v
theories/SymProofs.v
theories/SymThms.v
theories/DepProofs.v
theories/DepThms.v
theories/ReaderThms.v
theories/SelfTestThms.v
theories/PosDef.v
theories/SphMass.v
theories/SphMassThms.v
theories/SphUnif.v
theories/SphUnifThms.v
theories/SphSpec.v
theories/SphEnergy.v
theories/SphStab.v
theories/SphStabThms.v
theories/SphNum.v
theories/SphNumThms.v
theories/SphExist.v
theories/SphExistThms.v
theories/SedovModel.v
theories/SedovThms.v
theories/TimeModel.v
theories/TimeProofs.v
theories/TimeExist.v
theories/TimeThms.v
theories/TimeStab.v
theories/TimeStabThms.v
theories/TimeNumThms.v
theories/TimePosThms.v
theories/CoupPosThms.v
theories/TimeSolve.v
theories/TimeSolveThms.v
theories/SteadyModel.v
theories/SteadyThms.v
theories/DiffusionModel.v
theories/DiffusionThms.v
theories/TimeOrder.v
theories/TimeOrderThms.v
theories/FullThms.v
theories/OptionModel.v
theories/OptionThms.v
theories/GaussExist.v
theories/GaussRuleThms.v
theories/TestModel.v
theories/TestThms.v
theories/AngleThms.v
theories/RmsModel.v
theories/RmsProofs.v
theories/RmsThms.v
theories/FitThms.v
theories/CoupErrSpec.v
theories/CoupErrProofs.v
theories/CoupErrThms.v
theories/SplineErr.v
theories/SplineTestModel.v
theories/SplineErrThms.v
theories/SphErrSpec.v
theories/SphErrProj.v
theories/SphErrEn.v
theories/SphErrCons.v
theories/SphErrInv.v
theories/SphErrRate.v
theories/SphErrEst.v
theories/SphErrThms.v
theories/SphFullThms.v
theories/S2Model.v
theories/S2Thms.v
theories/OrthoThms.v
theories/SpeedModel.v
theories/SpeedThms.v
theories/UncolThms.v
theories/MomentThms.v
theories/OldRhsModel.v
theories/OldRhsThms.v
theories/DipoleThms.v
theories/OldMeshModel.v
theories/OldMeshThms.v
theories/LeftoverModel.v
theories/LeftoverThms.v
theories/TrackModel.v
theories/TrackThms.v
theories/ThickModel.v
theories/ThickThms.v
theories/TimeRate.v
theories/TimeRateThms.v
theories/SphRate.v
theories/SphRateThms.v
theories/FullRateThms.v
theories/SedovRunModel.v
theories/SedovRunThms.v
theories/ShellCopyModel.v
theories/ShellCopyThms.v
theories/FluxErrThms.v
theories/SphFluxThms.v
theories/PointErrThms.v
theories/PsiErrThms.v
theories/UncPointThms.v
theories/ShockRunModel.v
theories/ShockRunThms.v
theories/RunAllModel.v
theories/RunAllThms.v
theories/ChebTestModel.v
theories/ChebTestThms.v
