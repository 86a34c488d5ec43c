-Q theories Verif
theories/ListAux.v
theories/VecAux.v
theories/DofsModel.v
theories/DofsSpec.v
theories/DofsProofs.v
theories/DofsProps.v
theories/GraphModel.v
theories/GraphTrace.v
theories/GraphLists.v
theories/GraphInv.v
theories/GraphSpec.v
theories/GraphPres.v
theories/GraphPres2.v
theories/GraphPres3.v
theories/GraphFacts.v
theories/GraphFacts2.v
theories/GraphStatus.v
theories/GraphCache.v
theories/GraphExec.v
theories/GraphTable.v
theories/GraphProps.v
theories/AliasModel.v
theories/MakeOptModel.v
theories/PartitionModel.v
theories/PartitionProps.v
theories/MpiLoopModel.v
theories/MpiLoopProps.v
theories/FDModel.v
theories/FDProps.v
theories/DerivModel.v
theories/DerivProps.v
theories/GradProps.v
theories/ExprProps.v
theories/JsonModel.v
theories/JsonProofs.v
theories/JsonProps.v
theories/LsqModel.v
theories/LsqProps.v
theories/LsqSum.v
theories/ConProps.v
theories/Vec3.v
theories/BSModel.v
theories/BSDeriv.v
theories/BSVjp.v
theories/CoilModel.v
theories/CoilProps.v
theories/PenaltyModel.v
theories/PointsModel.v
theories/FieldModel.v
theories/FieldProps.v
theories/SymModel.v
theories/InterpModel.v
theories/Lagrange.v
theories/InterpProps.v
theories/InterpThms.v
theories/SurfQuad.v
theories/SurfModel.v
theories/SurfProps.v
theories/SurfRes.v
theories/SurfGeom.v
theories/SurfGeomProps.v
theories/SurfGeomJac.v
theories/SurfDiff.v
theories/SurfDiffProps.v
theories/SurfRZDiff.v
theories/CurveModel.v
theories/CurveProps.v
theories/PlanarModel.v
theories/PlanarProps.v
theories/CurveDiff.v
theories/CurveDiffProps.v
theories/CacheModel.v
theories/CacheProps.v
theories/CurveCache.v
theories/DistModel.v
theories/DistProps.v
theories/DistGrad.v
theories/CurveObjModel.v
theories/CurveObjProps.v
theories/LinkProps.v
theories/FluxModel.v
theories/FluxProps.v
theories/MpiObjModel.v
theories/MpiObjProps.v
theories/PMModel.v
theories/PMProps.v
theories/PMRelax.v
theories/GPMOModel.v
theories/GPMOProps.v
theories/GPMOOver.v
theories/GPMOBack.v
theories/WFModel.v
theories/WFGeom.v
theories/WFThms.v
theories/WFCells.v
theories/WFCurrents.v
theories/WFConstr.v
theories/WFCalls.v
theories/WFMatrix.v
theories/GSCOModel.v
theories/GSCOProps.v
theories/GSCOWire.v
theories/RCLSModel.v
theories/RCLSProps.v
theories/RCLSKern.v
theories/RCLSThms.v
theories/RCLSFresh.v
theories/ExactAlias.v
theories/ExactGraph.v
theories/ExactFD.v
theories/ProfileModel.v
theories/ProfileProps.v
theories/VmecModel.v
theories/VmecProps.v
theories/VmecThms.v
theories/VmecFiles.v
theories/BoozerModel.v
theories/BoozerProps.v
theories/QSProps.v
theories/SolveModel.v
theories/SolveProps.v
theories/SolveCon.v
theories/SolveMpi.v
theories/SolveMpiProps.v
theories/TraceRhs.v
theories/TraceInit.v
theories/TraceAngle.v
theories/TraceLoop.v
theories/TraceThms.v
theories/BoozSurf.v
theories/BoozProps.v
theories/BoozThms.v
theories/TensorModel.v
theories/TensorProps.v
theories/TensorThms.v
theories/TensorSym.v
theories/MaskModel.v
theories/MaskProps.v
theories/BoozRun.v
theories/BoozRunProps.v
theories/AdjLin.v
theories/AdjModel.v
theories/AdjProps.v
theories/AdjThms.v
theories/AdjCoils.v
theories/AdjEx.v
theories/QsrModel.v
theories/QsrProps.v
theories/QsrThms.v
theories/QfmProps.v
theories/NormModel.v
theories/NormProps.v
theories/FourModel.v
theories/FourProps.v
theories/FourVals.v
theories/RedModel.v
theories/RedProps.v
theories/CoilSetModel.v
theories/CoilSetProps.v
theories/EqModel.v
theories/EqProps.v
theories/FrameModel.v
theories/FrameProps.v
theories/HelixModel.v
theories/HelixProps.v
theories/FieldAModel.v
theories/FieldAProps.v
theories/DipoleModel.v
theories/DipoleProps.v
theories/AxisModel.v
theories/AxisProps.v
theories/ReimanModel.v
theories/ReimanProps.v
theories/ScalarModel.v
theories/ScalarProps.v
theories/ForceModel.v
theories/ForceProps.v
theories/FintModel.v
theories/FintProps.v
theories/SampleModel.v
theories/SampleProps.v
